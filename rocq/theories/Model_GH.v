(** * filterpy/gh/gh_filter.py

    Scalar states.  Division by zero is not modelled (Python raises
    ZeroDivisionError when dt = 0): the theorems assume dt <> 0. *)
From Coq Require Import List Arith Bool.
From Verif Require Import Ops.
Import ListNotations.

Declare Scope s_scope.
Delimit Scope s_scope with s.

Section GH.
Variable o : sops.
Local Notation "a + b" := (sadd o a b) : s_scope.
Local Notation "a - b" := (ssub o a b) : s_scope.
Local Notation "a * b" := (smul o a b) : s_scope.
Local Notation "a / b" := (sdiv o a b) : s_scope.
Local Notation "- a" := (sopp o a) : s_scope.
Local Notation "# k" := (snat o k) (at level 0, k at level 0) : s_scope.
(** [x**k] *)
Local Notation "a ** k" := (spow o a k) (at level 30) : s_scope.
Local Open Scope s_scope.

(** .5 and 1.5, exact in binary. *)
Definition half : sc o := #1 / #2.
Definition three_halves : sc o := #3 / #2.

(** ** GHFilter (197-523) *)
Record gh := mkGH {
  gh_x : sc o; gh_dx : sc o; gh_dt : sc o; gh_g : sc o; gh_h : sc o;
  gh_x_prediction : sc o; gh_dx_prediction : sc o; gh_y : sc o; gh_z : sc o }.

(** __init__ (301-319). *)
Definition gh_init (x dx dt g h : sc o) : gh := mkGH x dx dt g h x dx (s0 o) (s0 o).

(** update (322-377); self.z is not assigned. *)
Definition gh_update (z : sc o) (g h : option (sc o)) (s : gh) : gh :=
  let g := opt_or (gh_g s) g in
  let h := opt_or (gh_h s) h in
  let dxp := gh_dx s in
  let xp := gh_x s + gh_dx s * gh_dt s in
  let y := z - xp in
  mkGH (xp + g * y) (dxp + h * y / gh_dt s) (gh_dt s) (gh_g s) (gh_h s) xp dxp y (gh_z s).

(** The loop of batch_filter (433-450): the results after each measurement, the
    predictions, and the snapshots a saver takes of the filter object. *)
Fixpoint gh_batch_loop (dt g h_dt x dx : sc o) (data : list (sc o)) : list (sc o * sc o) * list (sc o) :=
  match data with
  | [] => ([], [])
  | z :: data =>
      let x_est := x + dx * dt in
      let residual := z - x_est in
      let dx := dx + h_dt * residual in
      let x := x_est + g * residual in
      let (r, p) := gh_batch_loop dt g h_dt x dx data in
      ((x, dx) :: r, x_est :: p)
  end.

(** batch_filter (380-455): the filter afterwards, results, predictions, and what
    [saver.save()] saw at each epoch. *)
Definition gh_batch (data : list (sc o)) (s : gh) : gh * list (sc o * sc o) * list (sc o) * list gh :=
  let (r, p) := gh_batch_loop (gh_dt s) (gh_g s) (gh_h s / gh_dt s) (gh_x s) (gh_dx s) data in
  (s, (gh_x s, gh_dx s) :: r, p, map (fun _ => s) data).

(** VRF_prediction (458-478). *)
Definition gh_VRF_prediction (s : gh) : sc o :=
  let g := gh_g s in let h := gh_h s in
  (#2 * g ** 2 + #2 * h + g * h) / (g * (#4 - #2 * g - h)).

(** VRF (481-509). *)
Definition gh_VRF (s : gh) : sc o * sc o :=
  let g := gh_g s in let h := gh_h s in
  let den := g * (#4 - #2 * g - h) in
  ((#2 * g ** 2 + #2 * h - #3 * g * h) / den,
   #2 * h ** 2 / (gh_dt s ** 2 * den)).

(** ** GHKFilter (526-854) *)
Record ghk := mkGHK {
  ghk_x : sc o; ghk_dx : sc o; ghk_ddx : sc o;
  ghk_x_prediction : sc o; ghk_dx_prediction : sc o; ghk_ddx_prediction : sc o;
  ghk_dt : sc o; ghk_g : sc o; ghk_h : sc o; ghk_k : sc o; ghk_y : sc o; ghk_z : sc o }.

(** __init__ (609-627). *)
Definition ghk_init (x dx ddx dt g h k : sc o) : ghk :=
  mkGHK x dx ddx x dx ddx dt g h k (s0 o) (s0 o).

(** update (630-680). *)
Definition ghk_update (z : sc o) (g h k : option (sc o)) (s : ghk) : ghk :=
  let g := opt_or (ghk_g s) g in
  let h := opt_or (ghk_h s) h in
  let k := opt_or (ghk_k s) k in
  let dt := ghk_dt s in
  let dt_sqr := dt ** 2 in
  let ddxp := ghk_ddx s in
  let dxp := ghk_dx s + ghk_ddx s * dt in
  let xp := ghk_x s + ghk_dx s * dt + half * ghk_ddx s * dt_sqr in
  let y := z - xp in
  mkGHK (xp + g * y) (dxp + h * y / dt) (ddxp + #2 * k * y / dt_sqr) xp dxp ddxp
    dt (ghk_g s) (ghk_h s) (ghk_k s) y (ghk_z s).

(** batch_filter (683-748): the same loop as GHFilter's; ddx and k are not read. *)
Definition ghk_batch (data : list (sc o)) (s : ghk) : ghk * list (sc o * sc o) * list (sc o) :=
  let (r, p) := gh_batch_loop (ghk_dt s) (ghk_g s) (ghk_h s / ghk_dt s) (ghk_x s) (ghk_dx s) data in
  (s, (ghk_x s, ghk_dx s) :: r, p).

(** VRF_prediction (751-774). *)
Definition ghk_VRF_prediction (s : ghk) : sc o :=
  let g := ghk_g s in let h := ghk_h s in let k := ghk_k s in
  let gh2 := #2 * g + h in
  (g * k * (gh2 - #4) + h * (g * gh2 + #2 * h)) / (#2 * k - g * (h + k) * (gh2 - #4)).

(** bias_error (777-794). *)
Definition ghk_bias_error (dddx : sc o) (s : ghk) : sc o :=
  - (ghk_dt s ** 3) * dddx / (#2 * ghk_k s).

(** VRF (797-836). *)
Definition ghk_VRF (s : ghk) : sc o * sc o * sc o :=
  let g := ghk_g s in let h := ghk_h s in let k := ghk_k s in
  let hg4 := #4 - #2 * g - h in
  let ghk := g * h + g * k - #2 * k in
  ((#2 * h * (#2 * g ** 2 + #2 * h - #3 * g * h) - #2 * g * k * hg4) / (#2 * k - g * (h + k) * hg4),
   (#2 * h ** 3 - #4 * h ** 2 * k + #4 * k ** 2 * (#2 - g)) / (#2 * hg4 * ghk),
   #8 * h * k ** 2 / (ghk_dt s ** 4 * hg4 * ghk)).

(** ** GHFilterOrder (31-194), [x] of length order+1.
    [y]: the initial zero vector is represented by 0. *)
Record gho := mkGHO {
  gho_x : list (sc o); gho_dt : sc o; gho_order : nat;
  gho_g : sc o; gho_h : option (sc o); gho_k : option (sc o); gho_y : sc o; gho_z : sc o }.

(** __init__ (110-133) with scalar x0 ([inl]) or a vector ([inr]); the order is
    an integer, given as a sign and a magnitude. *)
Definition gho_init (x0 : sc o + list (sc o)) (dt : sc o) (neg : bool) (order : nat)
    (g : sc o) (h k : option (sc o)) : res gho :=
  if neg || (2 <? order) then Err ValueError else
  let x := match x0 with
           | inl v => v :: repeat (s0 o) order
           | inr l => l
           end in
  Ok (mkGHO x dt order g h k (s0 o) (s0 o)).

(** [a if a is not None else b], None meaning "no number". *)
Definition or_else (a b : option (sc o)) : option (sc o) := match a with None => b | Some _ => a end.

(** update (136-181).  A gain that is None everywhere raises TypeError at its first
    use, after the assignments made before that point. *)
Definition gho_update (z : sc o) (g h k : option (sc o)) (s : gho) : gho * option exn :=
  let g := opt_or (gho_g s) g in
  let set x y z := mkGHO x (gho_dt s) (gho_order s) (gho_g s) (gho_h s) (gho_k s) y z in
  match gho_order s, gho_x s with
  | _, [] => (s, Some IndexError)
  | 0, x :: _ =>
      let y := z - x in
      (set (map (fun v => v + g * y) (gho_x s)) y (gho_z s), None)
  | 1, x :: dx :: rest =>
      let h := or_else h (gho_h s) in
      let dxdt := dx * gho_dt s in
      let y := z - (x + dxdt) in
      let x0 := x + dxdt + g * y in
      match h with
      | None => (set (x0 :: dx :: rest) y (gho_z s), Some TypeError)
      | Some h => (set (x0 :: (dx + h * y / gho_dt s) :: rest) y z, None)
      end
  | _, x :: dx :: ddx :: rest =>
      let h := or_else h (gho_h s) in
      let k := or_else k (gho_k s) in
      let dxdt := dx * gho_dt s in
      let T2 := gho_dt s ** 2 in
      let y := z - (x + dxdt + half * ddx * T2) in
      let x0 := x + dxdt + half * ddx * T2 + g * y in
      match h with
      | None => (set (x0 :: dx :: ddx :: rest) y (gho_z s), Some TypeError)
      | Some h =>
          let x1 := dx + ddx * gho_dt s + h * y / gho_dt s in
          match k with
          | None => (set (x0 :: x1 :: ddx :: rest) y (gho_z s), Some TypeError)
          | Some k => (set (x0 :: x1 :: (ddx + #2 * k * y / gho_dt s ** 2) :: rest) y (gho_z s), None)
          end
      end
  | _, _ => (s, Some IndexError)
  end.

(** ** Gain selection *)

(** optimal_noise_smoothing (857-898).  A division by zero raises (g = 1 in h, g = 0
    in k); the square root of a negative number, complex in Python, is not modelled. *)
Definition optimal_noise_smoothing (g : sc o) : res (sc o * sc o * sc o) :=
  let den := #8 * (#1 - g) in
  if seqb o den (s0 o) then Err ZeroDivisionError else
  let h := ((#2 * g ** 3 - #4 * g ** 2) + ssqrt o (#4 * g ** 6 - #64 * g ** 5 + #64 * g ** 4)) / den in
  if seqb o g (s0 o) then Err ZeroDivisionError else
  Ok (g, h, (h * (#2 - g) - g ** 2) / g).

(** least_squares_parameters (901-942). *)
Definition least_squares_parameters (n : nat) : sc o * sc o :=
  let den := (#n + #2) * (#n + #1) in
  (#2 * (#2 * #n + #1) / den, #6 / den).

Inductive gains := Gains2 (g h : sc o) | Gains3 (g h k : sc o).

(** critical_damping_parameters (945-1027). *)
Definition critical_damping_parameters (theta : sc o) (order : nat) : res gains :=
  if sltb o theta (s0 o) || sltb o (s1 o) theta then Err ValueError
  else if order =? 2 then Ok (Gains2 (#1 - theta ** 2) ((#1 - theta) ** 2))
  else if order =? 3 then
    Ok (Gains3 (#1 - theta ** 3) (three_halves * (#1 - theta ** 2) * (#1 - theta))
          (half * (#1 - theta) ** 3))
  else Err ValueError.

(** benedict_bornder_constants (1030-1080).  0.8 is 4/5 here; in the code it is the nearest double.  [**.5] of a
    number that is not a nonnegative one (g > 1) is not modelled: Python gives a complex number. *)
Definition benedict_bornder_constants (g : sc o) (critical : bool) : sc o * sc o :=
  let g_sqr := g ** 2 in
  if critical then (g, #4 / #5 * (#2 - g_sqr - #2 * ssqrt o (#1 - g_sqr)) / g_sqr)
  else (g, g_sqr / (#2 - g)).

End GH.

Arguments mkGH {o}. Arguments gh_x {o}. Arguments gh_dx {o}. Arguments gh_dt {o}.
Arguments gh_g {o}. Arguments gh_h {o}. Arguments gh_x_prediction {o}.
Arguments gh_dx_prediction {o}. Arguments gh_y {o}. Arguments gh_z {o}.
Arguments mkGHK {o}. Arguments ghk_x {o}. Arguments ghk_dx {o}. Arguments ghk_ddx {o}.
Arguments ghk_x_prediction {o}. Arguments ghk_dx_prediction {o}. Arguments ghk_ddx_prediction {o}.
Arguments ghk_dt {o}. Arguments ghk_g {o}. Arguments ghk_h {o}. Arguments ghk_k {o}.
Arguments ghk_y {o}. Arguments ghk_z {o}.
Arguments mkGHO {o}. Arguments gho_x {o}. Arguments gho_dt {o}. Arguments gho_order {o}.
Arguments gho_g {o}. Arguments gho_h {o}. Arguments gho_k {o}. Arguments gho_y {o}. Arguments gho_z {o}.
Arguments Gains2 {o}. Arguments Gains3 {o}.
Arguments gh_init {o}. Arguments gh_update {o}. Arguments gh_batch_loop {o}. Arguments gh_batch {o}.
Arguments gh_VRF {o}. Arguments gh_VRF_prediction {o}.
Arguments ghk_init {o}. Arguments ghk_update {o}. Arguments ghk_batch {o}.
Arguments ghk_VRF {o}. Arguments ghk_VRF_prediction {o}. Arguments ghk_bias_error {o}.
Arguments gho_init {o}. Arguments gho_update {o}. Arguments or_else {o}.
Arguments optimal_noise_smoothing {o}. Arguments least_squares_parameters {o}. Arguments critical_damping_parameters {o}.
Arguments benedict_bornder_constants {o}.
