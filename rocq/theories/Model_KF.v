(** * filterpy/kalman/kalman_filter.py *)
From Coq Require Import List Arith Bool ZArith.
From Verif Require Import Ops.
Import ListNotations.
Set Implicit Arguments.
Unset Strict Implicit.
Local Open Scope np_scope.

Section KalmanFilter.
Variable o : nops.
Variables n m l : nat.   (* dim_x, dim_z, dim_u *)

(** The attributes of a KalmanFilter object (kalman_filter.py 387-434).
    [kf_z] is the measurement vector whose entries may be None (408).
    [kf_inv] is the user-replaceable [self.inv] (434); [None] = it raises.
    [_I] (419) is always [meye n] ("Do not alter this").
    Simplification: x is always a (dim_x,1) column; all shapes are right. *)
Record kf := mkKF {
  kf_x : M o n 1;
  kf_P : M o n n;
  kf_Q : M o n n;
  kf_B : option (M o n l);
  kf_F : M o n n;
  kf_H : M o m n;
  kf_R : M o m m;
  kf_alpha_sq : sc o;
  kf_M : M o n m;
  kf_z : list (option (sc o));
  kf_K : M o n m;
  kf_y : M o m 1;
  kf_S : M o m m;
  kf_SI : M o m m;
  kf_x_prior : M o n 1;
  kf_P_prior : M o n n;
  kf_x_post : M o n 1;
  kf_P_post : M o n n;
  kf_loglik : option (sc o);
  kf_lik : option (sc o);
  kf_mahal : option (sc o);
  kf_inv : M o m m -> option (M o m m)
}.

(** Attribute assignment [self.a = v]. *)
Definition set_kf_x (v : _) (s : kf) : kf := mkKF v (kf_P s) (kf_Q s) (kf_B s) (kf_F s) (kf_H s) (kf_R s) (kf_alpha_sq s) (kf_M s) (kf_z s) (kf_K s) (kf_y s) (kf_S s) (kf_SI s) (kf_x_prior s) (kf_P_prior s) (kf_x_post s) (kf_P_post s) (kf_loglik s) (kf_lik s) (kf_mahal s) (kf_inv s).
Definition set_kf_P (v : _) (s : kf) : kf := mkKF (kf_x s) v (kf_Q s) (kf_B s) (kf_F s) (kf_H s) (kf_R s) (kf_alpha_sq s) (kf_M s) (kf_z s) (kf_K s) (kf_y s) (kf_S s) (kf_SI s) (kf_x_prior s) (kf_P_prior s) (kf_x_post s) (kf_P_post s) (kf_loglik s) (kf_lik s) (kf_mahal s) (kf_inv s).
Definition set_kf_Q (v : _) (s : kf) : kf := mkKF (kf_x s) (kf_P s) v (kf_B s) (kf_F s) (kf_H s) (kf_R s) (kf_alpha_sq s) (kf_M s) (kf_z s) (kf_K s) (kf_y s) (kf_S s) (kf_SI s) (kf_x_prior s) (kf_P_prior s) (kf_x_post s) (kf_P_post s) (kf_loglik s) (kf_lik s) (kf_mahal s) (kf_inv s).
Definition set_kf_B (v : _) (s : kf) : kf := mkKF (kf_x s) (kf_P s) (kf_Q s) v (kf_F s) (kf_H s) (kf_R s) (kf_alpha_sq s) (kf_M s) (kf_z s) (kf_K s) (kf_y s) (kf_S s) (kf_SI s) (kf_x_prior s) (kf_P_prior s) (kf_x_post s) (kf_P_post s) (kf_loglik s) (kf_lik s) (kf_mahal s) (kf_inv s).
Definition set_kf_F (v : _) (s : kf) : kf := mkKF (kf_x s) (kf_P s) (kf_Q s) (kf_B s) v (kf_H s) (kf_R s) (kf_alpha_sq s) (kf_M s) (kf_z s) (kf_K s) (kf_y s) (kf_S s) (kf_SI s) (kf_x_prior s) (kf_P_prior s) (kf_x_post s) (kf_P_post s) (kf_loglik s) (kf_lik s) (kf_mahal s) (kf_inv s).
Definition set_kf_H (v : _) (s : kf) : kf := mkKF (kf_x s) (kf_P s) (kf_Q s) (kf_B s) (kf_F s) v (kf_R s) (kf_alpha_sq s) (kf_M s) (kf_z s) (kf_K s) (kf_y s) (kf_S s) (kf_SI s) (kf_x_prior s) (kf_P_prior s) (kf_x_post s) (kf_P_post s) (kf_loglik s) (kf_lik s) (kf_mahal s) (kf_inv s).
Definition set_kf_R (v : _) (s : kf) : kf := mkKF (kf_x s) (kf_P s) (kf_Q s) (kf_B s) (kf_F s) (kf_H s) v (kf_alpha_sq s) (kf_M s) (kf_z s) (kf_K s) (kf_y s) (kf_S s) (kf_SI s) (kf_x_prior s) (kf_P_prior s) (kf_x_post s) (kf_P_post s) (kf_loglik s) (kf_lik s) (kf_mahal s) (kf_inv s).
Definition set_kf_alpha_sq (v : _) (s : kf) : kf := mkKF (kf_x s) (kf_P s) (kf_Q s) (kf_B s) (kf_F s) (kf_H s) (kf_R s) v (kf_M s) (kf_z s) (kf_K s) (kf_y s) (kf_S s) (kf_SI s) (kf_x_prior s) (kf_P_prior s) (kf_x_post s) (kf_P_post s) (kf_loglik s) (kf_lik s) (kf_mahal s) (kf_inv s).
Definition set_kf_M (v : _) (s : kf) : kf := mkKF (kf_x s) (kf_P s) (kf_Q s) (kf_B s) (kf_F s) (kf_H s) (kf_R s) (kf_alpha_sq s) v (kf_z s) (kf_K s) (kf_y s) (kf_S s) (kf_SI s) (kf_x_prior s) (kf_P_prior s) (kf_x_post s) (kf_P_post s) (kf_loglik s) (kf_lik s) (kf_mahal s) (kf_inv s).
Definition set_kf_z (v : _) (s : kf) : kf := mkKF (kf_x s) (kf_P s) (kf_Q s) (kf_B s) (kf_F s) (kf_H s) (kf_R s) (kf_alpha_sq s) (kf_M s) v (kf_K s) (kf_y s) (kf_S s) (kf_SI s) (kf_x_prior s) (kf_P_prior s) (kf_x_post s) (kf_P_post s) (kf_loglik s) (kf_lik s) (kf_mahal s) (kf_inv s).
Definition set_kf_K (v : _) (s : kf) : kf := mkKF (kf_x s) (kf_P s) (kf_Q s) (kf_B s) (kf_F s) (kf_H s) (kf_R s) (kf_alpha_sq s) (kf_M s) (kf_z s) v (kf_y s) (kf_S s) (kf_SI s) (kf_x_prior s) (kf_P_prior s) (kf_x_post s) (kf_P_post s) (kf_loglik s) (kf_lik s) (kf_mahal s) (kf_inv s).
Definition set_kf_y (v : _) (s : kf) : kf := mkKF (kf_x s) (kf_P s) (kf_Q s) (kf_B s) (kf_F s) (kf_H s) (kf_R s) (kf_alpha_sq s) (kf_M s) (kf_z s) (kf_K s) v (kf_S s) (kf_SI s) (kf_x_prior s) (kf_P_prior s) (kf_x_post s) (kf_P_post s) (kf_loglik s) (kf_lik s) (kf_mahal s) (kf_inv s).
Definition set_kf_S (v : _) (s : kf) : kf := mkKF (kf_x s) (kf_P s) (kf_Q s) (kf_B s) (kf_F s) (kf_H s) (kf_R s) (kf_alpha_sq s) (kf_M s) (kf_z s) (kf_K s) (kf_y s) v (kf_SI s) (kf_x_prior s) (kf_P_prior s) (kf_x_post s) (kf_P_post s) (kf_loglik s) (kf_lik s) (kf_mahal s) (kf_inv s).
Definition set_kf_SI (v : _) (s : kf) : kf := mkKF (kf_x s) (kf_P s) (kf_Q s) (kf_B s) (kf_F s) (kf_H s) (kf_R s) (kf_alpha_sq s) (kf_M s) (kf_z s) (kf_K s) (kf_y s) (kf_S s) v (kf_x_prior s) (kf_P_prior s) (kf_x_post s) (kf_P_post s) (kf_loglik s) (kf_lik s) (kf_mahal s) (kf_inv s).
Definition set_kf_x_prior (v : _) (s : kf) : kf := mkKF (kf_x s) (kf_P s) (kf_Q s) (kf_B s) (kf_F s) (kf_H s) (kf_R s) (kf_alpha_sq s) (kf_M s) (kf_z s) (kf_K s) (kf_y s) (kf_S s) (kf_SI s) v (kf_P_prior s) (kf_x_post s) (kf_P_post s) (kf_loglik s) (kf_lik s) (kf_mahal s) (kf_inv s).
Definition set_kf_P_prior (v : _) (s : kf) : kf := mkKF (kf_x s) (kf_P s) (kf_Q s) (kf_B s) (kf_F s) (kf_H s) (kf_R s) (kf_alpha_sq s) (kf_M s) (kf_z s) (kf_K s) (kf_y s) (kf_S s) (kf_SI s) (kf_x_prior s) v (kf_x_post s) (kf_P_post s) (kf_loglik s) (kf_lik s) (kf_mahal s) (kf_inv s).
Definition set_kf_x_post (v : _) (s : kf) : kf := mkKF (kf_x s) (kf_P s) (kf_Q s) (kf_B s) (kf_F s) (kf_H s) (kf_R s) (kf_alpha_sq s) (kf_M s) (kf_z s) (kf_K s) (kf_y s) (kf_S s) (kf_SI s) (kf_x_prior s) (kf_P_prior s) v (kf_P_post s) (kf_loglik s) (kf_lik s) (kf_mahal s) (kf_inv s).
Definition set_kf_P_post (v : _) (s : kf) : kf := mkKF (kf_x s) (kf_P s) (kf_Q s) (kf_B s) (kf_F s) (kf_H s) (kf_R s) (kf_alpha_sq s) (kf_M s) (kf_z s) (kf_K s) (kf_y s) (kf_S s) (kf_SI s) (kf_x_prior s) (kf_P_prior s) (kf_x_post s) v (kf_loglik s) (kf_lik s) (kf_mahal s) (kf_inv s).
Definition set_kf_loglik (v : _) (s : kf) : kf := mkKF (kf_x s) (kf_P s) (kf_Q s) (kf_B s) (kf_F s) (kf_H s) (kf_R s) (kf_alpha_sq s) (kf_M s) (kf_z s) (kf_K s) (kf_y s) (kf_S s) (kf_SI s) (kf_x_prior s) (kf_P_prior s) (kf_x_post s) (kf_P_post s) v (kf_lik s) (kf_mahal s) (kf_inv s).
Definition set_kf_lik (v : _) (s : kf) : kf := mkKF (kf_x s) (kf_P s) (kf_Q s) (kf_B s) (kf_F s) (kf_H s) (kf_R s) (kf_alpha_sq s) (kf_M s) (kf_z s) (kf_K s) (kf_y s) (kf_S s) (kf_SI s) (kf_x_prior s) (kf_P_prior s) (kf_x_post s) (kf_P_post s) (kf_loglik s) v (kf_mahal s) (kf_inv s).
Definition set_kf_mahal (v : _) (s : kf) : kf := mkKF (kf_x s) (kf_P s) (kf_Q s) (kf_B s) (kf_F s) (kf_H s) (kf_R s) (kf_alpha_sq s) (kf_M s) (kf_z s) (kf_K s) (kf_y s) (kf_S s) (kf_SI s) (kf_x_prior s) (kf_P_prior s) (kf_x_post s) (kf_P_post s) (kf_loglik s) (kf_lik s) v (kf_inv s).
Definition set_kf_inv (v : _) (s : kf) : kf := mkKF (kf_x s) (kf_P s) (kf_Q s) (kf_B s) (kf_F s) (kf_H s) (kf_R s) (kf_alpha_sq s) (kf_M s) (kf_z s) (kf_K s) (kf_y s) (kf_S s) (kf_SI s) (kf_x_prior s) (kf_P_prior s) (kf_x_post s) (kf_P_post s) (kf_loglik s) (kf_lik s) (kf_mahal s) v.

(** A measurement vector as stored in [self.z]. *)
Definition z_none : list (option (sc o)) := repeat None m.
Definition z_some (z : M o m 1) : list (option (sc o)) := map Some (col_list z).

(** [self._log_likelihood = None] etc. (511-513, 640-642, 701-703). *)
Definition clear_caches (s : kf) : kf :=
  set_kf_mahal None (set_kf_lik None (set_kf_loglik None s)).

(** KalmanFilter.__init__ (387-434): the attributes of a new object, for
    dimensions that passed the checks.  [fmin] is [sys.float_info.min]. *)
Definition kf_init (fmin : sc o) (inv : M o m m -> option (M o m m)) : kf :=
  mkKF (mzeros n 1) (meye n) (meye n) None (meye n) (mzeros m n) (meye m) (s1 o)
       (mzeros n m) z_none (mzeros n m) (mzeros m 1) (mzeros m m) (mzeros m m)
       (mzeros n 1) (meye n) (mzeros n 1) (meye n)
       (Some (slog o fmin)) (Some fmin) None inv.

(** Fx (+ Bu) (472-475, 1116-1119). *)
Definition apply_control (F : M o n n) (x : M o n 1)
    (B : option (M o n l)) (u : option (M o l 1)) : M o n 1 :=
  match B, u with
  | Some B, Some u => F @ x + B @ u
  | _, _ => F @ x
  end.

(** Which B is used: the argument, or self.B when it is None (461-462). *)
Definition B_or (d b : option (M o n l)) : option (M o n l) :=
  match b with None => d | Some _ => b end.

(** KalmanFilter.predict (437-482). *)
Definition kf_predict (u : option (M o l 1)) (B : option (M o n l))
    (F : option (M o n n)) (Q : option (sm o n)) (s : kf) : kf :=
  let B := B_or (kf_B s) B in
  let F := opt_or (kf_F s) F in
  let Q := sm_or (kf_Q s) Q in
  let x := apply_control F (kf_x s) B u in
  let P := mscale (kf_alpha_sq s) ((F @ kf_P s) @ F^T) + Q in
  let s := set_kf_x x s in
  let s := set_kf_P P s in
  let s := set_kf_x_prior x s in
  set_kf_P_prior P s.

(** Joseph form (555-556, 812+819, 1170-1171, 1495-1501). *)
Definition joseph {k} (P : M o n n) (K : M o n k) (H : M o k n) (R : M o k k) : M o n n :=
  let I_KH := meye n - K @ H in
  (I_KH @ P) @ I_KH^T + (K @ R) @ K^T.

(** The [z is None] branch shared by update, update_steadystate and
    update_correlated (515-520, 644-649, 705-710). *)
Definition skip_update (s : kf) : kf :=
  let s := set_kf_z z_none s in
  let s := set_kf_x_post (kf_x s) s in
  let s := set_kf_P_post (kf_P s) s in
  set_kf_y (mzeros m 1) s.

(** KalmanFilter.update (485-561).  The second component is the exception
    raised, if any; the first is the object as the call leaves it.
    Simplification: z is already a (dim_z,1) column ([reshape_z] is modelled in
    Model_Common.v; run-time shapes in Model_Dyn.v). *)
Definition kf_update (z : option (M o m 1)) (R : option (sm o m)) (H : option (M o m n))
    (s : kf) : kf * option exn :=
  let s := clear_caches s in
  match z with
  | None => (skip_update s, None)
  | Some z =>
      let R := sm_or (kf_R s) R in
      let H := opt_or (kf_H s) H in
      let y := z - H @ kf_x s in
      let s := set_kf_y y s in
      let PHT := kf_P s @ H^T in
      let S := H @ PHT + R in
      let s := set_kf_S S s in
      match kf_inv s S with
      | None => (s, Some LinAlgError)
      | Some SI =>
          let s := set_kf_SI SI s in
          let K := PHT @ SI in
          let s := set_kf_K K s in
          let s := set_kf_x (kf_x s + K @ y) s in
          let s := set_kf_P (joseph (kf_P s) K H R) s in
          let s := set_kf_z (z_some z) s in
          let s := set_kf_x_post (kf_x s) s in
          (set_kf_P_post (kf_P s) s, None)
      end
  end.

(** KalmanFilter.predict_steadystate (563-593).  [u] defaults to 0; here a zero
    control vector is passed explicitly. *)
Definition kf_predict_steadystate (u : M o l 1) (B : option (M o n l)) (s : kf) : kf :=
  let B := B_or (kf_B s) B in
  let x := apply_control (kf_F s) (kf_x s) B (Some u) in
  let s := set_kf_x x s in
  let s := set_kf_x_prior x s in
  set_kf_P_prior (kf_P s) s.

(** KalmanFilter.update_steadystate (595-668). *)
Definition kf_update_steadystate (z : option (M o m 1)) (s : kf) : kf :=
  let s := clear_caches s in
  match z with
  | None => skip_update s
  | Some z =>
      let y := z - kf_H s @ kf_x s in
      let s := set_kf_y y s in
      let s := set_kf_x (kf_x s + kf_K s @ y) s in
      let s := set_kf_z (z_some z) s in
      let s := set_kf_x_post (kf_x s) s in
      let s := set_kf_P_post (kf_P s) s in
      clear_caches s
  end.

(** KalmanFilter.update_correlated (670-752). *)
Definition kf_update_correlated (z : option (M o m 1)) (R : option (sm o m)) (H : option (M o m n))
    (s : kf) : kf * option exn :=
  let s := clear_caches s in
  match z with
  | None => (skip_update s, None)
  | Some z =>
      let R := sm_or (kf_R s) R in
      let H := opt_or (kf_H s) H in
      let y := z - H @ kf_x s in
      let s := set_kf_y y s in
      let PHT := kf_P s @ H^T in
      let S := H @ PHT + H @ kf_M s + (kf_M s)^T @ H^T + R in
      let s := set_kf_S S s in
      match kf_inv s S with
      | None => (s, Some LinAlgError)
      | Some SI =>
          let s := set_kf_SI SI s in
          let K := (PHT + kf_M s) @ SI in
          let s := set_kf_K K s in
          let s := set_kf_x (kf_x s + K @ y) s in
          let s := set_kf_P (kf_P s - K @ (H @ kf_P s + (kf_M s)^T)) s in
          let s := set_kf_z (z_some z) s in
          let s := set_kf_x_post (kf_x s) s in
          (set_kf_P_post (kf_P s) s, None)
      end
  end.

(** KalmanFilter.update_sequential (754-824) with [len(z_i) = k].  [linv] is
    [numpy.linalg.inv] (line 809: this method does not use self.inv).
    Simplification: a block reaching beyond dim_z raises ValueError here (NumPy
    raises it from the reshape at 793 or the slice assignments at 798-822). *)
Definition kf_update_sequential {k} (linv : M o k k -> option (M o k k)) (start : nat)
    (z_i : M o k 1) (R_i : option (sm o k)) (H_i : option (M o k n)) (s : kf)
    : kf * option exn :=
  if negb (start + k <=? m) then (s, Some ValueError) else
  let R_i := sm_or (mslice (kf_R s) start start k k) R_i in
  let H_i := opt_or (mslice (kf_H s) start 0 k n) H_i in
  let y_i := z_i - H_i @ kf_x s in
  let s := set_kf_y (mwrite (kf_y s) start 0 y_i) s in
  let PHT := kf_P s @ H_i^T in
  let S_i := H_i @ PHT + R_i in
  let K_i := if k =? 1
             then Some (mscale (sdiv o (s1 o) (mget S_i 0 0)) PHT)
             else option_map (fun SI => PHT @ SI) (linv S_i) in
  match K_i with
  | None => (s, Some LinAlgError)
  | Some K_i =>
      let s := set_kf_K (mwrite (kf_K s) 0 start K_i) s in
      let s := set_kf_x (kf_x s + K_i @ y_i) s in
      let s := set_kf_P (joseph (kf_P s) K_i H_i R_i) s in
      let s := set_kf_z (firstn start (kf_z s) ++ map Some (col_list z_i)
                         ++ skipn (start + k) (kf_z s)) s in
      let s := set_kf_x_post (kf_x s) s in
      (set_kf_P_post (kf_P s) s, None)
  end.

(** KalmanFilter.get_prediction (1076-1124). *)
Definition kf_get_prediction (u : option (M o l 1)) (B : option (M o n l))
    (F : option (M o n n)) (Q : option (sm o n)) (s : kf) : M o n 1 * M o n n :=
  let B := B_or (kf_B s) B in
  let F := opt_or (kf_F s) F in
  let Q := sm_or (kf_Q s) Q in
  let x := apply_control F (kf_x s) B u in
  let P := mscale (kf_alpha_sq s) ((F @ kf_P s) @ F^T) + Q in
  (x, P).

(** KalmanFilter.get_update (1126-1173). *)
Definition kf_get_update (z : option (M o m 1)) (s : kf) : res (M o n 1 * M o n n) :=
  match z with
  | None => Ok (kf_x s, kf_P s)
  | Some z =>
      let R := kf_R s in
      let H := kf_H s in
      let y := z - H @ kf_x s in
      let PHT := kf_P s @ H^T in
      let S := H @ PHT + R in
      match kf_inv s S with
      | None => Err LinAlgError
      | Some SI =>
          let K := PHT @ SI in
          Ok (kf_x s + K @ y, joseph (kf_P s) K H R)
      end
  end.

(** KalmanFilter.residual_of (1175-1181): uses x_prior, not x. *)
Definition kf_residual_of (z : M o m 1) (s : kf) : M o m 1 := z - kf_H s @ kf_x_prior s.

(** KalmanFilter.measurement_of_state (1183-1201). *)
Definition kf_measurement_of_state (x : M o n 1) (s : kf) : M o m 1 := kf_H s @ x.

(** One zipped row of batch_filter's argument lists (967, 980). *)
Record row := mkRow {
  r_z : option (M o m 1);
  r_F : option (M o n n);
  r_Q : option (sm o n);
  r_H : option (M o m n);
  r_R : option (sm o m);
  r_B : option (M o n l);
  r_u : option (M o l 1)
}.

(** [zip(zs, Fs, Qs, Hs, Rs, Bs, us)]: stops at the shortest list. *)
Fixpoint zip_rows (zs : list (option (M o m 1))) (Fs : list (option (M o n n)))
    (Qs : list (option (sm o n))) (Hs : list (option (M o m n)))
    (Rs : list (option (sm o m))) (Bs : list (option (M o n l)))
    (us : list (option (M o l 1))) : list row :=
  match zs, Fs, Qs, Hs, Rs, Bs, us with
  | z :: zs, F :: Fs, Q :: Qs, H :: Hs, R :: Rs, B :: Bs, u :: us =>
      mkRow z F Q H R B u :: zip_rows zs Fs Qs Hs Rs Bs us
  | _, _, _, _, _, _, _ => []
  end.

(** The four output lists of batch_filter, one entry per epoch. *)
Record brow := mkBrow {
  b_mean : M o n 1; b_cov : M o n n; b_mean_p : M o n 1; b_cov_p : M o n n }.

(** One epoch of the loop (967-978 / 980-991). *)
Definition batch_step (update_first : bool) (r : row) (s : kf) : kf * res brow :=
  if update_first then
    match kf_update (r_z r) (r_R r) (r_H r) s with
    | (s1, Some e) => (s1, Err e)
    | (s1, None) =>
        let s2 := kf_predict (r_u r) (r_B r) (r_F r) (r_Q r) s1 in
        (s2, Ok (mkBrow (kf_x s1) (kf_P s1) (kf_x s2) (kf_P s2)))
    end
  else
    let s1 := kf_predict (r_u r) (r_B r) (r_F r) (r_Q r) s in
    match kf_update (r_z r) (r_R r) (r_H r) s1 with
    | (s2, Some e) => (s2, Err e)
    | (s2, None) => (s2, Ok (mkBrow (kf_x s2) (kf_P s2) (kf_x s1) (kf_P s1)))
    end.

Fixpoint batch_loop (update_first : bool) (rows : list row) (s : kf) : kf * res (list brow) :=
  match rows with
  | [] => (s, Ok [])
  | r :: rows =>
      match batch_step update_first r s with
      | (s, Err e) => (s, Err e)
      | (s, Ok b) =>
          match batch_loop update_first rows s with
          | (s, Err e) => (s, Err e)
          | (s, Ok bs) => (s, Ok (b :: bs))
          end
      end
  end.

(** Default argument lists, [[self.F] * n] etc. (941-952). *)
Definition deflt {A} (d : A) (k : nat) (l : option (list A)) : list A :=
  match l with None => repeat d k | Some l => l end.

(** KalmanFilter.batch_filter (826-993).  The result is one [brow] per processed
    epoch.  Simplifications: the output arrays, which NumPy preallocates with
    len(zs) rows, are lists of the processed epochs; [us] defaults to zero
    vectors where the code passes the scalar 0 (same value when dim_u = 1 or
    B is None); the [saver] argument is in Model_Saver.v. *)
Definition kf_batch_filter (zs : list (option (M o m 1)))
    (Fs : option (list (option (M o n n)))) (Qs : option (list (option (sm o n))))
    (Hs : option (list (option (M o m n)))) (Rs : option (list (option (sm o m))))
    (Bs : option (list (option (M o n l)))) (us : option (list (option (M o l 1))))
    (update_first : bool) (s : kf) : kf * res (list brow) :=
  let k := length zs in
  batch_loop update_first
    (zip_rows zs (deflt (Some (kf_F s)) k Fs) (deflt (Some (Mat (kf_Q s))) k Qs)
       (deflt (Some (kf_H s)) k Hs) (deflt (Some (Mat (kf_R s))) k Rs)
       (deflt (kf_B s) k Bs) (deflt (Some (mzeros l 1)) k us)) s.

(** Cached properties.  [lpdf x mean cov] is filterpy.stats.logpdf with the
    default allow_singular=True; [fmin] is sys.float_info.min.  A property read
    returns the value and the object with the cache filled in. *)
Section Likelihood.
Variable lpdf : M o m 1 -> M o m 1 -> M o m m -> sc o.
Variable fmin : sc o.

(** KalmanFilter.log_likelihood (1203-1210). *)
Definition kf_log_likelihood (s : kf) : sc o * kf :=
  match kf_loglik s with
  | Some v => (v, s)
  | None => let v := lpdf (kf_y s) (mzeros m 1) (kf_S s) in (v, set_kf_loglik (Some v) s)
  end.

(** KalmanFilter.likelihood (1212-1225). *)
Definition kf_likelihood (s : kf) : sc o * kf :=
  match kf_lik s with
  | Some v => (v, s)
  | None =>
      let (ll, s) := kf_log_likelihood s in
      let v := sexp o ll in
      let v := if seqb o v (s0 o) then fmin else v in
      (v, set_kf_lik (Some v) s)
  end.

(** KalmanFilter.mahalanobis (1227-1239). *)
Definition kf_mahalanobis (s : kf) : sc o * kf :=
  match kf_mahal s with
  | Some v => (v, s)
  | None =>
      let v := ssqrt o (mget (((kf_y s)^T @ kf_SI s) @ kf_y s) 0 0) in
      (v, set_kf_mahal (Some v) s)
  end.

(** KalmanFilter.log_likelihood_of (1252-1260). *)
Definition kf_log_likelihood_of (z : option (M o m 1)) (s : kf) : sc o :=
  match z with
  | None => slog o fmin
  | Some z => lpdf z (kf_H s @ kf_x s) (kf_S s)
  end.
End Likelihood.

(** KalmanFilter.alpha getter (1241-1250): [_alpha_sq ** .5]. *)
Definition kf_alpha (s : kf) : sc o := ssqrt o (kf_alpha_sq s).

(** KalmanFilter.alpha setter (1262-1267).  [None] stands for a non-scalar. *)
Definition kf_set_alpha (v : option (sc o)) (s : kf) : kf * option exn :=
  match v with
  | None => (s, Some ValueError)
  | Some a => if sltb o a (s1 o) then (s, Some ValueError)
              else (set_kf_alpha_sq (smul o a a) s, None)
  end.

(** ** Histories: any sequence of public calls on one object.  An exception does
    not end the history: the caller may catch it and go on with the object as
    the failed call left it. *)
Inductive kf_call :=
| CPredict (u : option (M o l 1)) (B : option (M o n l)) (F : option (M o n n)) (Q : option (sm o n))
| CUpdate (z : option (M o m 1)) (R : option (sm o m)) (H : option (M o m n))
| CPredictSS (u : M o l 1) (B : option (M o n l))
| CUpdateSS (z : option (M o m 1))
| CUpdateCorr (z : option (M o m 1)) (R : option (sm o m)) (H : option (M o m n))
| CUpdateSeq (k : nat) (linv : M o k k -> option (M o k k)) (start : nat)
    (z : M o k 1) (R : option (sm o k)) (H : option (M o k n))
| CLogLik (lpdf : M o m 1 -> M o m 1 -> M o m m -> sc o)
| CLik (lpdf : M o m 1 -> M o m 1 -> M o m m -> sc o) (fmin : sc o)
| CMahal
| CSetAlpha (v : option (sc o)).

Definition kf_step (c : kf_call) (s : kf) : kf * option exn :=
  match c with
  | CPredict u B F Q => (kf_predict u B F Q s, None)
  | CUpdate z R H => kf_update z R H s
  | CPredictSS u B => (kf_predict_steadystate u B s, None)
  | CUpdateSS z => (kf_update_steadystate z s, None)
  | CUpdateCorr z R H => kf_update_correlated z R H s
  | CUpdateSeq linv start z R H => kf_update_sequential linv start z R H s
  | CLogLik lpdf => (snd (kf_log_likelihood lpdf s), None)
  | CLik lpdf fmin => (snd (kf_likelihood lpdf fmin s), None)
  | CMahal => (snd (kf_mahalanobis s), None)
  | CSetAlpha v => kf_set_alpha v s
  end.

Definition kf_run (cs : list kf_call) (s : kf) : kf :=
  fold_left (fun s c => fst (kf_step c s)) cs s.

(** ** Module level functions *)

(** predict (1571-1621) on matrices, with explicit u, B. *)
Definition f_predict (x : M o n 1) (P F Q : M o n n) (u : M o l 1) (B : M o n l)
    (alpha : sc o) : M o n 1 * M o n n :=
  (F @ x + B @ u, mscale (smul o alpha alpha) ((F @ P) @ F^T) + Q).

(** predict_steadystate (1624-1660). *)
Definition f_predict_steadystate (x : M o n 1) (F : M o n n) (u : M o l 1) (B : M o n l) : M o n 1 :=
  F @ x + B @ u.

(** update (1401-1508), return_all = True, matrix arguments.  If linalg.inv
    raises, the bare except (1486-1488) multiplies by the elementwise 1./S. *)
Definition f_update (linv : M o m m -> option (M o m m)) (x : M o n 1) (P : M o n n)
    (z : option (M o m 1)) (R : M o m m) (H : M o m n)
    : (M o n 1 * M o n n) * option (M o m 1 * M o n m * M o m m) :=
  match z with
  | None => ((x, P), None)
  | Some z =>
      let y := z - H @ x in
      let S := (H @ P) @ H^T + R in
      let K := match linv S with
               | Some SI => (P @ H^T) @ SI
               | None => (P @ H^T) @ mmap (sdiv o (s1 o)) S
               end in
      ((x + K @ y, joseph P K H R), Some (y, K, S))
  end.

(** update_steadystate (1511-1568). *)
Definition f_update_steadystate (x : M o n 1) (z : option (M o m 1)) (K : M o n m) (H : M o m n) : M o n 1 :=
  match z with
  | None => x
  | Some z => x + K @ (z - H @ x)
  end.

(** batch_filter (1664-1788).  [Bs], [us]: if us is None both are replaced by
    zeros (1759-1761); if us is given and Bs is None, zip(None) raises TypeError.
    [zB] below is the zero control term. *)
Record frow := mkFrow {
  fr_z : option (M o m 1); fr_F : M o n n; fr_Q : M o n n; fr_H : M o m n;
  fr_R : M o m m; fr_B : M o n l; fr_u : M o l 1 }.

Fixpoint zip_frows (zs : list (option (M o m 1))) (Fs Qs : list (M o n n))
    (Hs : list (M o m n)) (Rs : list (M o m m)) (Bs : list (M o n l)) (us : list (M o l 1))
    : list frow :=
  match zs, Fs, Qs, Hs, Rs, Bs, us with
  | z :: zs, F :: Fs, Q :: Qs, H :: Hs, R :: Rs, B :: Bs, u :: us =>
      mkFrow z F Q H R B u :: zip_frows zs Fs Qs Hs Rs Bs us
  | _, _, _, _, _, _, _ => []
  end.

Definition f_batch_step (linv : M o m m -> option (M o m m)) (update_first : bool) (r : frow)
    (xp : M o n 1 * M o n n) : (M o n 1 * M o n n) * brow :=
  if update_first then
    let '(x1, P1) := fst (f_update linv (fst xp) (snd xp) (fr_z r) (fr_R r) (fr_H r)) in
    let '(x2, P2) := f_predict x1 P1 (fr_F r) (fr_Q r) (fr_u r) (fr_B r) (s1 o) in
    ((x2, P2), mkBrow x1 P1 x2 P2)
  else
    let '(x1, P1) := f_predict (fst xp) (snd xp) (fr_F r) (fr_Q r) (fr_u r) (fr_B r) (s1 o) in
    let '(x2, P2) := fst (f_update linv x1 P1 (fr_z r) (fr_R r) (fr_H r)) in
    ((x2, P2), mkBrow x2 P2 x1 P1).

Fixpoint f_batch_loop (linv : M o m m -> option (M o m m)) (update_first : bool)
    (rows : list frow) (xp : M o n 1 * M o n n) : list brow :=
  match rows with
  | [] => []
  | r :: rows =>
      let (xp, b) := f_batch_step linv update_first r xp in
      b :: f_batch_loop linv update_first rows xp
  end.

Definition f_batch_filter (linv : M o m m -> option (M o m m)) (x : M o n 1) (P : M o n n)
    (zs : list (option (M o m 1))) (Fs Qs : list (M o n n)) (Hs : list (M o m n))
    (Rs : list (M o m m)) (Bs : option (list (M o n l))) (us : option (list (M o l 1)))
    (update_first : bool) : res (list brow) :=
  let k := length zs in
  match us, Bs with
  | None, _ =>
      Ok (f_batch_loop linv update_first
            (zip_frows zs Fs Qs Hs Rs (repeat (mzeros n l) k) (repeat (mzeros l 1) k)) (x, P))
  | Some us, Some Bs =>
      Ok (f_batch_loop linv update_first (zip_frows zs Fs Qs Hs Rs Bs us) (x, P))
  | Some _, None => Err TypeError
  end.

(** ** RTS smoothers *)
Record rts := mkRts {
  rts_x : list (M o n 1); rts_P : list (M o n n);
  rts_K : list (M o n n); rts_Pp : list (M o n n) }.

(** The loop body (1067-1072, with [idx k = k+1]; 1851-1856, with [idx k = k]);
    list reads out of range raise IndexError. *)
Definition rts_body (idx : nat -> nat) (linv : M o n n -> option (M o n n))
    (Fs Qs : list (M o n n)) (k : nat) (r : rts) : res rts :=
  match nth_error Fs (idx k), nth_error Qs (idx k), nth_error (rts_x r) k,
        nth_error (rts_x r) (k + 1), nth_error (rts_P r) k, nth_error (rts_P r) (k + 1) with
  | Some F, Some Q, Some xk, Some xk1, Some Pk, Some Pk1 =>
      let Pp := (F @ Pk) @ F^T + Q in
      match linv Pp with
      | None => Err LinAlgError
      | Some Pi =>
          let K := (Pk @ F^T) @ Pi in
          Ok (mkRts (set_nth (rts_x r) k (xk + K @ (xk1 - F @ xk)))
                    (set_nth (rts_P r) k (Pk + (K @ (Pk1 - Pp)) @ K^T))
                    (set_nth (rts_K r) k K)
                    (set_nth (rts_Pp r) k Pp))
      end
  | _, _, _, _, _, _ => Err IndexError
  end.

(** [for k in range(c-1, -1, -1)]. *)
Fixpoint rts_loop (idx : nat -> nat) (linv : M o n n -> option (M o n n))
    (Fs Qs : list (M o n n)) (c : nat) (r : rts) : res rts :=
  match c with
  | 0 => Ok r
  | S k => rbind (rts_body idx linv Fs Qs k r) (rts_loop idx linv Fs Qs k)
  end.

Definition rts_run (idx : nat -> nat) (linv : M o n n -> option (M o n n))
    (Xs : list (M o n 1)) (Ps Fs Qs : list (M o n n)) : res rts :=
  if negb (length Xs =? length Ps) then Err ValueError else
  rts_loop idx linv Fs Qs (length Xs - 1)
    (mkRts Xs Ps (repeat (mzeros n n) (length Xs)) Ps).

(** KalmanFilter.rts_smoother (995-1074). *)
Definition kf_rts_smoother (linv : M o n n -> option (M o n n)) (Xs : list (M o n 1))
    (Ps : list (M o n n)) (Fs Qs : option (list (M o n n))) (s : kf) : res rts :=
  rts_run (fun k => (k + 1)%nat) linv Xs Ps
    (deflt (kf_F s) (length Xs) Fs) (deflt (kf_Q s) (length Xs) Qs).

(** rts_smoother (1792-1858). *)
Definition f_rts_smoother (linv : M o n n -> option (M o n n)) (Xs : list (M o n 1))
    (Ps Fs Qs : list (M o n n)) : res rts :=
  rts_run (fun k => k) linv Xs Ps Fs Qs.

End KalmanFilter.

(** The dimension checks of __init__ (388-393). *)
Definition kf_check_dims (dim_x dim_z dim_u : Z) : option exn :=
  if (dim_x <? 1)%Z then Some ValueError
  else if (dim_z <? 1)%Z then Some ValueError
  else if (dim_u <? 0)%Z then Some ValueError
  else None.

Arguments CMahal {o n m l}.
Arguments CSetAlpha {o n m l} v.
Arguments CPredictSS {o n m l} u B.
Arguments CPredict {o n m l} u B F Q.
Arguments CUpdate {o n m l} z R H.
Arguments CUpdateSS {o n m l} z.
Arguments CUpdateCorr {o n m l} z R H.
Arguments CUpdateSeq {o n m l} k linv start z R H.
Arguments CLogLik {o n m l} lpdf.
Arguments CLik {o n m l} lpdf fmin.
Arguments z_none {o} m.
Arguments kf_init {o} n m l fmin inv.
