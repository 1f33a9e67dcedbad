(** * Model of kalman/fixed_lag_smoother.py.

    The state is a (dim_x, 1) column, measurements are (dim_z, 1) columns.  Not modelled: 1-D states, and a control input
    when B is the scalar 0 of the constructor (B is a matrix here). *)
From Coq Require Import List Arith Bool.
From Verif Require Import Ops.
Import ListNotations.
Set Implicit Arguments.
Unset Strict Implicit.
Local Open Scope np_scope.

Section FLS.
Variable o : nops.
Variables n m l : nat.

(** The attributes no method assigns; [fl_inv] is numpy.linalg.inv. *)
Record fls_cfg := mkFC {
  fl_F : M o n n;
  fl_H : M o m n;
  fl_R : M o m m;
  fl_Q : M o n n;
  fl_B : M o n l;
  fl_N : option nat;
  fl_inv : M o m m -> option (M o m m)
}.

(** x, P, y, S, count, xSmooth (an attribute only if N was given). *)
Record fls := mkFL {
  fl_x : M o n 1;
  fl_P : M o n n;
  fl_y : M o m 1;
  fl_S : M o m m;
  fl_count : nat;
  fl_xs : option (list (M o n 1))
}.

(** __init__ (85-130): the defaults of the assigned attributes. *)
Definition fls_init (N : option nat) : fls :=
  mkFL (mzeros n 1) (meye n) (mzeros m 1) (mzeros m m) 0 (match N with None => None | Some _ => Some [] end).

(** The loop over the last N entries (200-206): state PS and xSmooth. *)
Definition fls_correct (HTSI : M o n m) (F_LH : M o n n) (y : M o m 1) (k : nat) (st : M o n n * list (M o n 1)) (i : nat) :
    M o n n * list (M o n 1) :=
  let (PS, xs) := st in
  let K := PS @ HTSI in
  let PS := PS @ F_LH in
  let si := (k - i)%nat in
  (PS, set_nth xs si (nth si xs (mzeros n 1) + K @ y)).

(** smooth (133-215).  y and S are assigned before inv can raise; xSmooth is missing (AttributeError) when the object was
    made without N, and count >= None raises TypeError.  xSmooth[si] cannot be out of range: its length is count
    (theorem C49_run). *)
Definition fls_smooth (c : fls_cfg) (z : M o m 1) (u : option (M o l 1)) (s : fls) : fls * option exn :=
  let H := fl_H c in let R := fl_R c in let F := fl_F c in
  let P := fl_P s in let x := fl_x s in
  let k := fl_count s in
  let x_pre := F @ x in
  let x_pre := match u with None => x_pre | Some u => x_pre + fl_B c @ u end in
  let P := (F @ P) @ F^T + fl_Q c in
  let y := z - H @ x_pre in
  let S := (H @ P) @ H^T + R in
  match fl_inv c S with
  | None => (mkFL (fl_x s) (fl_P s) y S (fl_count s) (fl_xs s), Some LinAlgError)
  | Some SI =>
      let K := (P @ H^T) @ SI in
      let x := x_pre + K @ y in
      let I_KH := meye n - K @ H in
      let P := (I_KH @ P) @ I_KH^T + (K @ R) @ K^T in
      match fl_xs s with
      | None => (mkFL (fl_x s) (fl_P s) y S (fl_count s) None, Some AttributeError)
      | Some xs =>
          let xs := xs ++ [x_pre] in
          let HTSI := H^T @ SI in
          let F_LH := (F - K @ H)^T in
          match fl_N c with
          | None => (mkFL (fl_x s) (fl_P s) y S (fl_count s) (Some xs), Some TypeError)
          | Some N =>
              let xs :=
                if (N <=? k)%nat
                then snd (fold_left (fls_correct HTSI F_LH y k) (seq 0 N) (P, xs))
                else set_nth xs k x in
              (mkFL x P y S (k + 1)%nat (Some xs), None)
          end
      end
  end.

(** The loop of smooth_batch (261-309) over the remaining measurements; xSmooth and xhat are arrays of len(zs) rows. *)
Fixpoint fls_batch_loop (c : fls_cfg) (N : nat) (us : option (list (M o l 1))) (k : nat) (zs : list (M o m 1))
    (x : M o n 1) (P : M o n n) (xSmooth xhat : list (M o n 1)) : res (list (M o n 1) * list (M o n 1)) :=
  match zs with
  | [] => Ok (xSmooth, xhat)
  | z :: r =>
      let H := fl_H c in let R := fl_R c in let F := fl_F c in
      let x_pre := F @ x in
      rbind (match us with
             | None => Ok x_pre
             | Some us => match nth_error us k with None => Err IndexError | Some u => Ok (x_pre + fl_B c @ u) end
             end) (fun x_pre =>
      let P := (F @ P) @ F^T + fl_Q c in
      let y := z - H @ x_pre in
      let S := (H @ P) @ H^T + R in
      match fl_inv c S with
      | None => Err LinAlgError
      | Some SI =>
          let K := (P @ H^T) @ SI in
          let x := x_pre + K @ y in
          let I_KH := meye n - K @ H in
          let P := (I_KH @ P) @ I_KH^T + (K @ R) @ K^T in
          let xhat := set_nth xhat k x in
          let xSmooth := set_nth xSmooth k x_pre in
          let HTSI := H^T @ SI in
          let F_LH := (F - K @ H)^T in
          let xSmooth :=
            if (N <=? k)%nat
            then snd (fold_left (fls_correct HTSI F_LH y k) (seq 0 N) (P, xSmooth))
            else set_nth xSmooth k (nth k xhat (mzeros n 1)) in
          fls_batch_loop c N us (k + 1)%nat r x P xSmooth xhat
      end)
  end.

(** smooth_batch (217-311); the object is not assigned to. *)
Definition fls_batch (c : fls_cfg) (zs : list (M o m 1)) (N : nat) (us : option (list (M o l 1))) (s : fls) :
    res (list (M o n 1) * list (M o n 1)) :=
  fls_batch_loop c N us 0 zs (fl_x s) (fl_P s) (repeat (mzeros n 1) (length zs)) (repeat (mzeros n 1) (length zs)).

(** A caller's loop over smooth: final state, the x of each step, the first exception. *)
Fixpoint fls_run (c : fls_cfg) (zs : list (M o m 1 * option (M o l 1))) (s : fls) : fls * list (M o n 1) * option exn :=
  match zs with
  | [] => (s, [], None)
  | (z, u) :: r =>
      match fls_smooth c z u s with
      | (s, Some e) => (s, [], Some e)
      | (s, None) => let '(s', xhat, e) := fls_run c r s in (s', fl_x s :: xhat, e)
      end
  end.
End FLS.
