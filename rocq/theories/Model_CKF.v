(** * filterpy/kalman/CubatureKalmanFilter.py

    The cubature points are the rows of a 2n x n array.  The attribute x is a column once predict has
    been called (__init__ makes it one-dimensional; predict flattens it, so both are modelled by a
    column; update before the first predict is not modelled for the one-dimensional x). *)
From Coq Require Import List Arith Bool.
From Verif Require Import Ops Model_Common Model_UKF.
Import ListNotations.
Set Implicit Arguments.
Unset Strict Implicit.
Local Open Scope nat_scope.
Local Open Scope np_scope.

Section CKF.
Variable o : nops.
Variables n m : nat.   (* dim_x, dim_z *)
Notation k := (n + n)%nat.

(** spherical_radial_sigmas (32-61); scipy's cholesky may raise LinAlgError ([None]). *)
Definition spherical_radial_sigmas (chol : M o n n -> option (M o n n)) (x : M o n 1) (P : M o n n) : res (M o k n) :=
  let x := x^T in
  match chol P with
  | None => Err LinAlgError
  | Some U =>
      let U := mscale (ssqrt o (snat o n)) U in
      Ok (fold_left (fun s i => mwrite (mwrite s i 0 (x + mrow U i)) (n + i)%nat 0 (x - mrow U i)) (seq 0 n) (mzeros k n))
  end.

(** ckf_transform (64-98). *)
Definition ckf_transform {q p} (Xs : M o q p) (Q : M o p p) : M o p 1 * M o p p :=
  let x := mdivs (fold_left (fun a i => a + mrow Xs i) (seq 0 q) (mzeros 1 p))^T (snat o q) in
  let xf := x^T in
  let P := fold_left (fun P i => P + ((mrow Xs i)^T @ mrow Xs i - xf^T @ xf)) (seq 0 q) (mzeros p p) in
  (x, mscale (sdiv o (s1 o) (snat o q)) P + Q).

(** Attributes no method changes (x_mean, z_mean and residual_x are stored and never used). *)
Record ck_cfg := mkCC {
  cc_Q : M o n n;
  cc_R : M o m m;
  cc_dt : sc o;
  cc_hx : M o 1 n -> M o 1 m;
  cc_fx : M o 1 n -> sc o -> M o 1 n;
  cc_residual_z : M o m 1 -> M o m 1 -> M o m 1;
  cc_chol : M o n n -> option (M o n n);
  cc_inv : M o m m -> option (M o m m) }.
(** Attributes the methods change. *)
Record ck_st := mkCS {
  c_x : M o n 1;
  c_P : M o n n;
  c_K : M o n m;
  c_y : M o m 1;
  c_z : option (M o m 1);
  c_S : M o m m;
  c_SI : M o m m;
  c_sigmas_f : M o k n;
  c_sigmas_h : M o k m;
  c_x_prior : M o n 1;
  c_P_prior : M o n n;
  c_x_post : M o n 1;
  c_P_post : M o n n;
  c_loglik : option (sc o);
  c_lik : option (sc o);
  c_mahal : option (sc o) }.

(** __init__ (241-290); K and y start as the scalar 0. *)
Definition ck_init (fmin : sc o) : ck_st :=
  mkCS (mzeros n 1) (meye n) (mzeros n m) (mzeros m 1) None (mzeros m m) (mzeros m m) (mzeros k n) (mzeros k m)
    (mzeros n 1) (meye n) (mzeros n 1) (meye n) (Some (slog o fmin)) (Some fmin) None.

(** predict (292-327). *)
Definition ck_predict (dt : option (sc o)) (c : ck_cfg) (s : ck_st) : ck_st * option exn :=
  match spherical_radial_sigmas (cc_chol c) (c_x s) (c_P s) with
  | Err e => (s, Some e)
  | Ok sig =>
      let sf := map_rows (fun x => cc_fx c x (opt_or (cc_dt c) dt)) sig (c_sigmas_f s) in
      let (x, P) := ckf_transform sf (cc_Q c) in
      (mkCS x P (c_K s) (c_y s) (c_z s) (c_S s) (c_SI s) sf (c_sigmas_h s) x P (c_x_post s) (c_P_post s)
         (c_loglik s) (c_lik s) (c_mahal s), None)
  end.

(** The part of update (371-384) before the residual: sigmas_h, zp, S, and, when inv succeeds, SI and K. *)
Definition ck_measure (R : option (sm o m)) (c : ck_cfg) (s : ck_st) : M o k m * M o m 1 * M o m m * option (M o m m * M o n m) :=
  let R := sm_or (cc_R c) R in
  let sh := map_rows (cc_hx c) (c_sigmas_f s) (c_sigmas_h s) in
  let (zp, Sm) := ckf_transform sh R in
  (sh, zp, Sm,
   match cc_inv c Sm with
   | None => None
   | Some SI =>
       let Pxz := mdivs (outer_product_sum (sub_row (c_sigmas_f s) (c_x s)^T) (sub_row sh zp^T)) (snat o k) in
       Some (SI, Pxz @ SI)
   end).

(** update (329-398), z a column of dim_z entries. *)
Definition ck_update (z : option (M o m 1)) (R : option (sm o m)) (c : ck_cfg) (s : ck_st) : ck_st * option exn :=
  match z with
  | None => (mkCS (c_x s) (c_P s) (c_K s) (c_y s) None (c_S s) (c_SI s) (c_sigmas_f s) (c_sigmas_h s) (c_x_prior s) (c_P_prior s)
               (c_x s) (c_P s) (c_loglik s) (c_lik s) (c_mahal s), None)
  | Some z =>
      match ck_measure R c s with
      | (sh, zp, Sm, None) =>
          (mkCS (c_x s) (c_P s) (c_K s) (c_y s) (c_z s) Sm (c_SI s) (c_sigmas_f s) sh (c_x_prior s) (c_P_prior s)
             (c_x_post s) (c_P_post s) (c_loglik s) (c_lik s) (c_mahal s), Some LinAlgError)
      | (sh, zp, Sm, Some (SI, K)) =>
          let y := cc_residual_z c z zp in
          let x := c_x s + K @ y in
          let P := c_P s - (K @ Sm) @ K^T in
          (mkCS x P K y (Some z) Sm SI (c_sigmas_f s) sh (c_x_prior s) (c_P_prior s) x P None None None, None)
      end
  end.

(** The same update with z one-dimensional, the shape the docstring asks for, and the default residual:
    np.subtract broadcasts z (along the columns) against the column zp, so y is a dim_z x dim_z array and
    self.x becomes a dim_x x dim_z array.  The result is the value of self.x. *)
Definition ck_update_1d (z : M o 1 m) (R : option (sm o m)) (c : ck_cfg) (s : ck_st) : res (M o n m) :=
  match ck_measure R c s with
  | (_, _, _, None) => Err LinAlgError
  | (_, zp, _, Some (_, K)) =>
      let y := mfun m m (fun i j => ssub o (mget z 0 j) (mget zp i 0)) in
      let d := K @ y in
      Ok (mfun n m (fun i j => sadd o (mget (c_x s) i 0) (mget d i j)))
  end.

Inductive ck_call := KPredict (dt : option (sc o)) | KUpdate (z : option (M o m 1)) (R : option (sm o m)).
Definition ck_step (c : ck_cfg) (a : ck_call) (s : ck_st) : ck_st * option exn :=
  match a with KPredict dt => ck_predict dt c s | KUpdate z R => ck_update z R c s end.

(** The cached properties (392-428).  [lpdf y S] is filterpy.stats.logpdf(x=y, cov=S). *)
Section Likelihood.
Variable lpdf : M o m 1 -> M o m m -> sc o.
Variable fmin : sc o.
Definition ck_log_likelihood (s : ck_st) : sc o * ck_st :=
  match c_loglik s with
  | Some v => (v, s)
  | None => let v := lpdf (c_y s) (c_S s) in
      (v, mkCS (c_x s) (c_P s) (c_K s) (c_y s) (c_z s) (c_S s) (c_SI s) (c_sigmas_f s) (c_sigmas_h s) (c_x_prior s) (c_P_prior s) (c_x_post s) (c_P_post s) (Some v) (c_lik s) (c_mahal s))
  end.
Definition ck_likelihood (s : ck_st) : sc o * ck_st :=
  match c_lik s with
  | Some v => (v, s)
  | None =>
      let (ll, s) := ck_log_likelihood s in
      let v := if seqb o (sexp o ll) (s0 o) then fmin else sexp o ll in
      (v, mkCS (c_x s) (c_P s) (c_K s) (c_y s) (c_z s) (c_S s) (c_SI s) (c_sigmas_f s) (c_sigmas_h s) (c_x_prior s) (c_P_prior s) (c_x_post s) (c_P_post s) (c_loglik s) (Some v) (c_mahal s))
  end.
Definition ck_mahalanobis (s : ck_st) : sc o * ck_st :=
  match c_mahal s with
  | Some v => (v, s)
  | None => let v := ssqrt o (mget (((c_y s)^T @ c_SI s) @ c_y s) 0 0) in
      (v, mkCS (c_x s) (c_P s) (c_K s) (c_y s) (c_z s) (c_S s) (c_SI s) (c_sigmas_f s) (c_sigmas_h s) (c_x_prior s) (c_P_prior s) (c_x_post s) (c_P_post s) (c_loglik s) (c_lik s) (Some v))
  end.
End Likelihood.
End CKF.
