(** * covariance_ellipse (filterpy/stats/stats.py:672-697). *)
From Coq Require Import List Arith.
From Verif Require Import Ops.
Import ListNotations.
Set Implicit Arguments.
Unset Strict Implicit.

Section Ellipse.
Variable o : nops.
(** U and s of numpy.linalg.svd on a 2 x 2 array (the third result is not used), and math.atan2. *)
Variable svd : M o 2 2 -> res (M o 2 2 * (sc o * sc o)).
Variable atan2 : sc o -> sc o -> sc o.

(** math.sqrt: ValueError on a negative argument. *)
Definition py_sqrt (x : sc o) : res (sc o) := if sltb o x (s0 o) then Err ValueError else Ok (ssqrt o x).

(** covariance_ellipse (672-697). *)
Definition covariance_ellipse (P : M o 2 2) (deviations : sc o) : res (sc o * sc o * sc o) :=
  rbind (svd P) (fun us =>
  let '(U, (a, b)) := us in
  let orientation := atan2 (mget U 1 0) (mget U 0 0) in
  rbind (py_sqrt a) (fun ra =>
  let width := smul o deviations ra in
  rbind (py_sqrt b) (fun rb =>
  let height := smul o deviations rb in
  if sltb o width height then Err ValueError else Ok (orientation, width, height)))).
End Ellipse.
