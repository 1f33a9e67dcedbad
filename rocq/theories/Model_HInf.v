(** * Model of hinfinity/hinfinity_filter.py.

    x is a (dim_x, 1) column and measurements are (dim_z, 1) columns.  Not modelled: the deprecation warning, __repr__, a
    measurement that cannot be copied, and the broadcast that turns x into a (dim_x, dim_u) array when B is a matrix with
    several columns and predict is called without u. *)
From Coq Require Import List Arith Bool.
From Verif Require Import Ops.
Import ListNotations.
Set Implicit Arguments.
Unset Strict Implicit.
Local Open Scope np_scope.

Section HInf.
Variable o : nops.
Variables n m l : nat.

(** The attributes no method assigns (64-80), and scipy.linalg.inv (None: it raised LinAlgError). *)
Record hi_cfg := mkHC {
  h_gamma : sc o;
  h_F : M o n n;
  h_H : M o m n;
  h_Q : M o n n;
  h_W : M o n n;
  h_inv : M o n n -> option (M o n n)
}.

(** x, P, _V, _V_inv, K, y, z. *)
Record hi := mkHI {
  h_x : M o n 1;
  h_P : M o n n;
  h_V : M o m m;
  h_V_inv : M o m m;
  h_K : sc o;
  h_y : M o m 1;
  h_z : M o m 1
}.

(** __init__ (61-91): the defaults of the assigned attributes. *)
Definition hi_init : hi :=
  mkHI (mzeros n 1) (meye n) (mzeros m m) (mzeros m m) (s0 o) (mzeros m 1) (mzeros m 1).

(** update (93-142).  The local K is not stored; nothing is assigned before inv can raise. *)
Definition hi_update (c : hi_cfg) (z : option (M o m 1)) (s : hi) : hi * option exn :=
  match z with
  | None => (s, None)
  | Some z =>
      let P := h_P s in
      let HTVI := (h_H c)^T @ h_V_inv s in
      match h_inv c (meye n - mscale (h_gamma c) (h_Q c @ P) + (HTVI @ h_H c) @ P) with
      | None => (s, Some LinAlgError)
      | Some L =>
          let PL := P @ L in
          let K := (h_F c @ PL) @ HTVI in
          let y := z - h_H c @ h_x s in
          let x := h_x s + K @ y in
          let P := (h_F c @ PL) @ (h_F c)^T + h_W c in
          let P := mdivs (P + P^T) (snat o 2) in
          (mkHI x P (h_V s) (h_V_inv s) (h_K s) y z, None)
      end
  end.

(** B and u of a predict: both still 0, or a matrix and a column. *)
Inductive hi_ctl := CtlZero | Ctl (B : M o n l) (u : M o l 1).

(** get_prediction (219-233): dot(F, x) + dot(B, u). *)
Definition hi_get_prediction (c : hi_cfg) (bu : hi_ctl) (s : hi) : M o n 1 :=
  h_F c @ h_x s + match bu with CtlZero => mzeros n 1 | Ctl B u => B @ u end.

(** predict (145-157): only x. *)
Definition hi_predict (c : hi_cfg) (bu : hi_ctl) (s : hi) : hi :=
  mkHI (hi_get_prediction c bu s) (h_P s) (h_V s) (h_V_inv s) (h_K s) (h_y s) (h_z s).

(** residual_of (236-240) and measurement_of_state (243-256). *)
Definition hi_residual_of (c : hi_cfg) (z : M o m 1) (s : hi) : M o m 1 := z - h_H c @ h_x s.
Definition hi_measurement_of_state (c : hi_cfg) (x : M o n 1) : M o m 1 := h_H c @ x.

(** V.setter (265-273): a scalar becomes [[v]] (so dim_z is 1); _V is assigned before inv can raise. *)
Definition hi_set_V (inv : M o m m -> option (M o m m)) (v : M o m m) (s : hi) : hi * option exn :=
  match inv v with
  | None => (mkHI (h_x s) (h_P s) v (h_V_inv s) (h_K s) (h_y s) (h_z s), Some LinAlgError)
  | Some vi => (mkHI (h_x s) (h_P s) v vi (h_K s) (h_y s) (h_z s), None)
  end.

(** The saver argument of batch_filter: None, an object with a save method, or a value without one such as the default
    False.  What a Saver records is modelled in Model_Saver.v; saving does not alter the filter. *)
Inductive saver_arg := SaverNone | SaverObj | SaverFalse.
Definition save_result (sv : saver_arg) : option exn :=
  match sv with SaverNone | SaverObj => None | SaverFalse => Some AttributeError end.

(** The loops of batch_filter (196-216): the final state, the means and covariances, the exception. *)
Fixpoint hi_batch_loop (c : hi_cfg) (update_first : bool) (sv : saver_arg) (zs : list (option (M o m 1))) (s : hi) :
    hi * list (M o n 1 * M o n n) * option exn :=
  match zs with
  | [] => (s, [], None)
  | z :: r =>
      let s1 := if update_first then s else hi_predict c CtlZero s in
      match hi_update c z s1 with
      | (s, Some e) => (s, [], Some e)
      | (s, None) =>
          let row := (h_x s, h_P s) in
          let s := if update_first then hi_predict c CtlZero s else s in
          match save_result sv with
          | Some e => (s, [row], Some e)
          | None => let '(s', rows, e) := hi_batch_loop c update_first sv r s in (s', row :: rows, e)
          end
      end
  end.

(** batch_filter (160-216); saver=False by default. *)
Definition hi_batch (c : hi_cfg) (update_first : bool) (sv : saver_arg) (zs : list (option (M o m 1))) (s : hi) :
    hi * res (list (M o n 1) * list (M o n n)) :=
  let '(s', rows, e) := hi_batch_loop c update_first sv zs s in
  (s', match e with None => Ok (map fst rows, map snd rows) | Some e => Err e end).
Definition hi_batch_default (c : hi_cfg) := hi_batch c false SaverFalse.
End HInf.

Arguments CtlZero {o n l}.
Arguments Ctl {o n l} B u.
