(** * filterpy/kalman/ensemble_kalman_filter.py

    The ensemble is an N x n array, one member per row; x is a 1 x n array.  What
    multivariate_normal returns (N rows) is an argument of every method that calls it. *)
From Coq Require Import List Arith Bool ZArith.
From Verif Require Import Ops Model_Common Model_UKF.
Import ListNotations.
Set Implicit Arguments.
Unset Strict Implicit.
Local Open Scope nat_scope.
Local Open Scope np_scope.

Section EnKF.
Variable o : nops.
Variables n m N : nat.   (* dim_x, dim_z, N *)

(** np.mean(A, axis=0): the rows are summed from the first on (numpy's blockwise order of summation is
    not modelled). *)
Definition row_mean {q p} (A : M o q p) : M o 1 p :=
  mdivs (fold_left (fun a i => a + mrow A i) (seq 0 q) (mzeros 1 p)) (snat o q).

(** Attributes no method changes (158-184). *)
Record en_cfg := mkNC {
  nc_Q : M o n n;
  nc_R : M o m m;
  nc_dt : sc o;
  nc_hx : M o 1 n -> M o 1 m;
  nc_fx : M o 1 n -> sc o -> M o 1 n;
  nc_inv : M o m m -> option (M o m m) }.
(** Attributes the methods change. *)
Record en_st := mkNS {
  n_x : M o 1 n;
  n_P : M o n n;
  n_sigmas : M o N n;
  n_K : M o n m;
  n_z : option (M o 1 m);
  n_S : M o m m;
  n_SI : M o m m;
  n_x_prior : M o 1 n;
  n_P_prior : M o n n;
  n_x_post : M o 1 n;
  n_P_post : M o n n }.

(** initialize (186-216), x one-dimensional; [draws] is the initial ensemble. *)
Definition en_initialize (draws : M o N n) (x : M o 1 n) (P : M o n n) (s : en_st) : en_st :=
  mkNS x P draws (n_K s) (n_z s) (n_S s) (n_SI s) x P x P.
(** __init__ (158-184) after the checks of [en_check]. *)
Definition en_init (draws : M o N n) (x : M o 1 n) (P : M o n n) : en_st :=
  mkNS x P draws (mzeros n m) None (mzeros m m) (mzeros m m) x P x P.

(** The update of one member (260-262) for all members: sigmas[i] += K (z + e_r[i] - sigmas_h[i]). *)
Definition en_shift (K : M o n m) (z : M o 1 m) (er sh : M o N m) (sig : M o N n) : M o N n :=
  fold_left (fun out i => mwrite out i 0 (mrow out i + (K @ ((z + mrow er i) - mrow sh i)^T)^T)) (seq 0 N) sig.

(** update (218-273); [er] is what multivariate_normal(self._mean_z, R, N) returns. *)
Definition en_update (z : option (M o 1 m)) (R : option (sm o m)) (er : M o N m) (c : en_cfg) (s : en_st) : en_st * option exn :=
  match z with
  | None => (mkNS (n_x s) (n_P s) (n_sigmas s) (n_K s) None (n_S s) (n_SI s) (n_x_prior s) (n_P_prior s) (n_x s) (n_P s), None)
  | Some z =>
      let R := sm_or (nc_R c) R in
      let sh := map_rows (nc_hx c) (n_sigmas s) (mzeros N m) in
      let zm := row_mean sh in
      let d := ssub o (snat o N) (s1 o) in
      let Pzz := mdivs (outer_product_sum (sub_row sh zm) (sub_row sh zm)) d + R in
      let Pxz := mdivs (outer_product_sum (sub_row (n_sigmas s) (n_x s)) (sub_row sh zm)) d in
      match nc_inv c Pzz with
      | None => (mkNS (n_x s) (n_P s) (n_sigmas s) (n_K s) (n_z s) Pzz (n_SI s) (n_x_prior s) (n_P_prior s) (n_x_post s) (n_P_post s),
                 Some LinAlgError)
      | Some SI =>
          let K := Pxz @ SI in
          let sig := en_shift K z er sh (n_sigmas s) in
          let x := row_mean sig in
          let P := n_P s - (K @ Pzz) @ K^T in
          (mkNS x P sig K (Some z) Pzz SI (n_x_prior s) (n_P_prior s) x P, None)
      end
  end.

(** predict (275-290); [e] is what multivariate_normal(self._mean, self.Q, N) returns. *)
Definition en_predict (e : M o N n) (c : en_cfg) (s : en_st) : en_st :=
  let sig := map_rows (fun x => nc_fx c x (nc_dt c)) (n_sigmas s) (n_sigmas s) + e in
  let x := row_mean sig in
  let P := mdivs (outer_product_sum (sub_row sig x) (sub_row sig x)) (ssub o (snat o N) (s1 o)) in
  mkNS x P sig (n_K s) (n_z s) (n_S s) (n_SI s) x P (n_x_post s) (n_P_post s).

Inductive en_call := NPredict (e : M o N n) | NUpdate (z : option (M o 1 m)) (R : option (sm o m)) (er : M o N m).
Definition en_step (c : en_cfg) (a : en_call) (s : en_st) : en_st * option exn :=
  match a with NPredict e => (en_predict e c s, None) | NUpdate z R er => en_update z R er c s end.
End EnKF.

(** The checks of __init__ and initialize (159-163, 204-205). *)
Definition en_check (dim_z N : Z) (x_ndim : nat) : option exn :=
  if (dim_z <=? 0)%Z then Some ValueError else if (N <=? 0)%Z then Some ValueError
  else if negb (x_ndim =? 1) then Some ValueError else None.
