(** * What the fixed lag smoother computes, as a Kalman pass followed by a closed formula for every smoothed entry. *)
From Coq Require Import List Arith.
From Verif Require Import Ops Model_FLS.
Import ListNotations.
Set Implicit Arguments.
Unset Strict Implicit.
Local Open Scope np_scope.

Section S.
Variable o : nops.
Variables n m l : nat.

(** What measurement k leaves behind: the prediction, the estimate, its covariance, and the correction data
    (innovation y, H^T S^-1 and the transposed closed-loop matrix (F - K H)^T). *)
Record kstep := mkStep {
  k_pre : M o n 1;
  k_x : M o n 1;
  k_P : M o n n;
  k_y : M o m 1;
  k_W : M o n m;
  k_A : M o n n
}.

(** One Kalman cycle; None when inv raises. *)
Definition cycle (F : M o n n) (H : M o m n) (R : M o m m) (Q : M o n n) (B : M o n l) inv
    (x : M o n 1) (P : M o n n) (z : M o m 1) (u : option (M o l 1)) : option kstep :=
  let x' := match u with None => F @ x | Some u => F @ x + B @ u end in
  let P' := (F @ P) @ F^T + Q in
  match inv ((H @ P') @ H^T + R) with
  | None => None
  | Some SI =>
      let K := (P' @ H^T) @ SI in
      let y := z - H @ x' in
      let E := meye n - K @ H in
      Some (mkStep x' (x' + K @ y) ((E @ P') @ E^T + (K @ R) @ K^T) y (H^T @ SI) (F - K @ H)^T)
  end.

(** P A^d. *)
Fixpoint times (P A : M o n n) (d : nat) : M o n n :=
  match d with 0 => P | S d => times P A d @ A end.

(** What step k adds to entry k - d. *)
Definition bump (s : kstep) (d : nat) : M o n 1 := (times (k_P s) (k_A s) d @ k_W s) @ k_y s.

(** Smoothed entry j: the estimate when j < N, the prediction otherwise, plus the corrections of the steps
    k = max N j, ..., min (j + N, number of steps) - 1. *)
Definition entry (N : nat) (ks : list kstep) (j : nat) : option (M o n 1) :=
  match nth_error ks j with
  | None => None
  | Some s =>
      Some (fold_left
              (fun e k => match nth_error ks k with None => e | Some t => e + bump t (k - j) end)
              (seq (max N j) (min (j + N) (length ks) - max N j))
              (if j <? N then k_x s else k_pre s))
  end.

(** The cycle with the matrices of an object. *)
Definition cyc (c : fls_cfg o n m l) x P z u := cycle (fl_F c) (fl_H c) (fl_R c) (fl_Q c) (fl_B c) (fl_inv c) x P z u.

(** The Kalman pass over a list of inputs: the steps done, and whether inv stopped it. *)
Fixpoint pass (c : fls_cfg o n m l) (zs : list (M o m 1 * option (M o l 1))) x P : list kstep * bool :=
  match zs with
  | [] => ([], true)
  | (z, u) :: r =>
      match cyc c x P z u with
      | None => ([], false)
      | Some t => let (ks, b) := pass c r (k_x t) (k_P t) in (t :: ks, b)
      end
  end.
End S.
