(** * filterpy/kalman/square_root.py *)
From Coq Require Import List Arith Bool ZArith.
From Verif Require Import Ops.
Import ListNotations.
Set Implicit Arguments.
Unset Strict Implicit.
Local Open Scope np_scope.

Section SquareRoot.
Variable o : nops.
Variables n m l : nat.   (* dim_x, dim_z, dim_u *)

(** Attributes the methods do not change.  [sq_B = None] is [self.B = 0.] (145). *)
Record sq_cfg := mkSC {
  sc_Q12 : M o n n;
  sc_B : option (M o n l);
  sc_F : M o n n;
  sc_H : M o m n;
  sc_R12 : M o m m
}.

(** Attributes the methods change.  Simplification: [x += ...] (219) updates the
    array in place; here x is a value (the copies at 223, 246 make the other
    attributes independent of it); Model_Refs has the references. [q_z = None]: the vector of Nones. *)
Record sq_st := mkSS {
  q_x : M o n 1;
  q_P12 : M o n n;
  q_z : option (M o m 1);
  q_K : M o n m;
  q_S12 : M o m m;
  q_SI12 : M o m m;
  q_y : M o m 1;
  q_M : M o (m + n) (m + n);
  q_x_prior : M o n 1;
  q_P12_prior : M o n n;
  q_x_post : M o n 1;
  q_P12_post : M o n n
}.

(** SquareRootKalmanFilter.__init__ (127-169). *)
Definition sq_cfg_init : sq_cfg := mkSC (meye n) None (meye n) (mzeros m n) (meye m).
Definition sq_init : sq_st :=
  mkSS (mzeros n 1) (meye n) None (mzeros n m) (mzeros m m) (mzeros m m) (mzeros m 1)
    (mzeros (m + n) (m + n)) (mzeros n 1) (meye n) (mzeros n 1) (meye n).

(** [qr A] is the second component of scipy.linalg.qr(A), of A's shape;
    [pinv] is scipy.linalg.pinv. *)
Variable qr : forall p q, M o p q -> M o p q.
Variable pinv : M o m m -> M o m m.

(** SquareRootKalmanFilter.update (172-224).  [R2] is a square root of the noise. *)
Definition sq_update (z : option (M o m 1)) (R2 : option (sm o m)) (c : sq_cfg) (s : sq_st) : sq_st :=
  match z with
  | None =>
      mkSS (q_x s) (q_P12 s) None (q_K s) (q_S12 s) (q_SI12 s) (q_y s) (q_M s)
        (q_x_prior s) (q_P12_prior s) (q_x s) (q_P12 s)
  | Some z =>
      let R2 := sm_or (sc_R12 c) R2 in
      let A := mwrite (q_M s) 0 0 (R2^T) in
      let A := mwrite A m 0 ((sc_H c @ q_P12 s)^T) in
      let A := mwrite A m m ((q_P12 s)^T) in
      let r := qr A in
      let S12 := (mslice r 0 0 m m)^T in
      let SI12 := pinv S12 in
      let K := (mslice r 0 m m n)^T @ SI12 in
      let y := z - sc_H c @ q_x s in
      let x := q_x s + K @ y in
      let P12 := (mslice r m m n n)^T in
      mkSS x P12 (Some z) K S12 SI12 y A (q_x_prior s) (q_P12_prior s) x P12
  end.

(** [np.hstack([A, B])]. *)
Definition hstack {p q r} (A : M o p q) (B : M o p r) : M o p (q + r) :=
  mfun p (q + r) (fun i j => if j <? q then mget A i j else mget B i (j - q)).

(** SquareRootKalmanFilter.predict (226-248). [None]: u = 0 or B = 0. *)
Definition sq_predict (u : option (M o l 1)) (c : sq_cfg) (s : sq_st) : sq_st :=
  let x := match sc_B c, u with
           | Some B, Some u => sc_F c @ q_x s + B @ u
           | _, _ => sc_F c @ q_x s + mzeros n 1
           end in
  let P2 := qr ((hstack (sc_F c @ q_P12 s) (sc_Q12 c))^T) in
  let P12 := (mslice P2 0 0 n n)^T in
  mkSS x P12 (q_z s) (q_K s) (q_S12 s) (q_SI12 s) (q_y s) (q_M s) x P12 (q_x_post s) (q_P12_post s).

(** Properties (276-340).  P_post (300-303) reads the prior's square root. *)
Definition sq_Q (c : sq_cfg) : M o n n := sc_Q12 c @ (sc_Q12 c)^T.
Definition sq_R (c : sq_cfg) : M o m m := sc_R12 c @ (sc_R12 c)^T.
Definition sq_P (s : sq_st) : M o n n := q_P12 s @ (q_P12 s)^T.
Definition sq_P_prior (s : sq_st) : M o n n := q_P12_prior s @ (q_P12_prior s)^T.
Definition sq_P_post (s : sq_st) : M o n n := q_P12_prior s @ (q_P12_prior s)^T.
Definition sq_S (s : sq_st) : M o m m := q_S12 s @ (q_S12 s)^T.
Definition sq_SI (s : sq_st) : M o m m := (q_SI12 s)^T @ q_SI12 s.

(** residual_of, measurement_of_state (250-274). *)
Definition sq_residual_of (z : M o m 1) (c : sq_cfg) (s : sq_st) : M o m 1 := z - sc_H c @ q_x s.
Definition sq_measurement_of_state (x : M o n 1) (c : sq_cfg) : M o m 1 := sc_H c @ x.

(** The P, Q, R setters (287-291, 309-313, 325-329); [chol] is
    cholesky(.., lower=True) and may raise LinAlgError. *)
Definition sq_set_P (chol : M o n n -> option (M o n n)) (P : M o n n) (s : sq_st) : sq_st * option exn :=
  match chol P with
  | None => (s, Some LinAlgError)
  | Some L => (mkSS (q_x s) L (q_z s) (q_K s) (q_S12 s) (q_SI12 s) (q_y s) (q_M s)
                 (q_x_prior s) (q_P12_prior s) (q_x_post s) (q_P12_post s), None)
  end.

Definition sq_set_Q (chol : M o n n -> option (M o n n)) (Q : M o n n) (c : sq_cfg) : sq_cfg * option exn :=
  match chol Q with
  | None => (c, Some LinAlgError)
  | Some L => (mkSC L (sc_B c) (sc_F c) (sc_H c) (sc_R12 c), None)
  end.
Definition sq_set_R (chol : M o m m -> option (M o m m)) (R : M o m m) (c : sq_cfg) : sq_cfg * option exn :=
  match chol R with
  | None => (c, Some LinAlgError)
  | Some L => (mkSC (sc_Q12 c) (sc_B c) (sc_F c) (sc_H c) L, None)
  end.

(** A history; the configuration may change between calls. *)
Inductive sq_call :=
| SPredict (u : option (M o l 1))
| SUpdate (z : option (M o m 1)) (R2 : option (sm o m)).
Definition sq_step (cc : sq_cfg * sq_call) (s : sq_st) : sq_st :=
  match snd cc with
  | SPredict u => sq_predict u (fst cc) s
  | SUpdate z R2 => sq_update z R2 (fst cc) s
  end.
Definition sq_run (cs : list (sq_cfg * sq_call)) (s : sq_st) : sq_st :=
  fold_left (fun s c => sq_step c s) cs s.
End SquareRoot.

(** The dimension checks (128-133): dim_z is tested twice and dim_x never. *)
Definition sq_check_dims (dim_x dim_z dim_u : Z) : option exn :=
  if (dim_z <? 1)%Z then Some ValueError
  else if (dim_z <? 1)%Z then Some ValueError
  else if (dim_u <? 0)%Z then Some ValueError
  else None.

Arguments SPredict {o m l} u.
Arguments SUpdate {o m l} z R2.
