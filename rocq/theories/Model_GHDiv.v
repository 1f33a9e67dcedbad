(** * The divisions of filterpy/gh/gh_filter.py on Python numbers, which raise ZeroDivisionError

    Model_GH divides with [sdiv]; here every [/] between Python floats (or integers) is checked, and a method that raises
    leaves the attributes it had assigned by then.  With NumPy scalars there is no exception (inf or nan and a warning): for them
    Model_GH with binary64 applies.  GHFilterOrder keeps x in an array, so its divisions are NumPy's and are not repeated here. *)
From Coq Require Import List Arith.
From Verif Require Import Ops Model_GH.
Import ListNotations.
Set Implicit Arguments.

Section Div.
Variable o : sops.
Declare Scope d_scope.
Local Notation "a + b" := (sadd o a b) : d_scope.
Local Notation "a - b" := (ssub o a b) : d_scope.
Local Notation "a * b" := (smul o a b) : d_scope.
Local Notation "- a" := (sopp o a) : d_scope.
Local Notation "# k" := (snat o k) (at level 1) : d_scope.
Local Notation "a ** k" := (spow o a k) (at level 30) : d_scope.
Local Open Scope d_scope.

(** a / b. *)
Definition pdiv (a b : sc o) : res (sc o) := if seqb o b (s0 o) then Err ZeroDivisionError else Ok (sdiv o a b).

(** GHFilter.update (362-377): x_prediction, dx_prediction and y are assigned before the division of 373, x and dx after it. *)
Definition gh_update_py (z : sc o) (g h : option (sc o)) (s : gh o) : gh o * option exn :=
  let g := opt_or (gh_g s) g in
  let h := opt_or (gh_h s) h in
  let dxp := gh_dx s in
  let xp := gh_x s + gh_dx s * gh_dt s in
  let y := z - xp in
  match pdiv (h * y) (gh_dt s) with
  | Err e => (mkGH (gh_x s) (gh_dx s) (gh_dt s) (gh_g s) (gh_h s) xp dxp y (gh_z s), Some e)
  | Ok q => (mkGH (xp + g * y) (dxp + q) (gh_dt s) (gh_g s) (gh_h s) xp dxp y (gh_z s), None)
  end.

(** GHFilter.batch_filter (418-455): h / dt (433) comes before the loop. *)
Definition gh_batch_py (data : list (sc o)) (s : gh o) : res (gh o * list (sc o * sc o) * list (sc o) * list (gh o)) :=
  match pdiv (gh_h s) (gh_dt s) with
  | Err e => Err e
  | Ok h_dt =>
      let (r, p) := gh_batch_loop (gh_dt s) (gh_g s) h_dt (gh_x s) (gh_dx s) data in
      Ok (s, (gh_x s, gh_dx s) :: r, p, map (fun _ => s) data)
  end.

(** GHFilter.VRF_prediction (475-478). *)
Definition gh_VRF_prediction_py (s : gh o) : res (sc o) :=
  let g := gh_g s in let h := gh_h s in
  pdiv (#2 * g ** 2 + #2 * h + g * h) (g * (#4 - #2 * g - h)).
(** GHFilter.VRF (501-509). *)
Definition gh_VRF_py (s : gh o) : res (sc o * sc o) :=
  let g := gh_g s in let h := gh_h s in
  let den := g * (#4 - #2 * g - h) in
  match pdiv (#2 * g ** 2 + #2 * h - #3 * g * h) den with
  | Err e => Err e
  | Ok vx => match pdiv (#2 * h ** 2) (gh_dt s ** 2 * den) with Err e => Err e | Ok vdx => Ok (vx, vdx) end
  end.

(** GHKFilter.update (659-680): ddx (676) is assigned before the division of dx (677). *)
Definition ghk_update_py (z : sc o) (g h k : option (sc o)) (s : ghk o) : ghk o * option exn :=
  let g := opt_or (ghk_g s) g in
  let h := opt_or (ghk_h s) h in
  let k := opt_or (ghk_k s) k in
  let dt := ghk_dt s in
  let dt_sqr := dt ** 2 in
  let ddxp := ghk_ddx s in
  let dxp := ghk_dx s + ghk_ddx s * dt in
  let xp := ghk_x s + ghk_dx s * dt + half o * ghk_ddx s * dt_sqr in
  let y := z - xp in
  let out x dx ddx := mkGHK x dx ddx xp dxp ddxp dt (ghk_g s) (ghk_h s) (ghk_k s) y (ghk_z s) in
  match pdiv (#2 * k * y) dt_sqr with
  | Err e => (out (ghk_x s) (ghk_dx s) (ghk_ddx s), Some e)
  | Ok q2 =>
      match pdiv (h * y) dt with
      | Err e => (out (ghk_x s) (ghk_dx s) (ddxp + q2), Some e)
      | Ok q1 => (out (xp + g * y) (dxp + q1) (ddxp + q2), None)
      end
  end.
(** GHKFilter.batch_filter (729). *)
Definition ghk_batch_py (data : list (sc o)) (s : ghk o) : res (ghk o * list (sc o * sc o) * list (sc o)) :=
  match pdiv (ghk_h s) (ghk_dt s) with
  | Err e => Err e
  | Ok h_dt =>
      let (r, p) := gh_batch_loop (ghk_dt s) (ghk_g s) h_dt (ghk_x s) (ghk_dx s) data in
      Ok (s, (ghk_x s, ghk_dx s) :: r, p)
  end.
(** GHKFilter.VRF_prediction (769-774). *)
Definition ghk_VRF_prediction_py (s : ghk o) : res (sc o) :=
  let g := ghk_g s in let h := ghk_h s in let k := ghk_k s in
  let gh2 := #2 * g + h in
  pdiv (g * k * (gh2 - #4) + h * (g * gh2 + #2 * h)) (#2 * k - g * (h + k) * (gh2 - #4)).
(** GHKFilter.bias_error (794). *)
Definition ghk_bias_error_py (dddx : sc o) (s : ghk o) : res (sc o) := pdiv (- (ghk_dt s ** 3) * dddx) (#2 * ghk_k s).
(** GHKFilter.VRF (822-836). *)
Definition ghk_VRF_py (s : ghk o) : res (sc o * sc o * sc o) :=
  let g := ghk_g s in let h := ghk_h s in let k := ghk_k s in
  let hg4 := #4 - #2 * g - h in
  let ghk := g * h + g * k - #2 * k in
  match pdiv (#2 * h * (#2 * g ** 2 + #2 * h - #3 * g * h) - #2 * g * k * hg4) (#2 * k - g * (h + k) * hg4) with
  | Err e => Err e
  | Ok vx =>
      match pdiv (#2 * h ** 3 - #4 * h ** 2 * k + #4 * k ** 2 * (#2 - g)) (#2 * hg4 * ghk) with
      | Err e => Err e
      | Ok vdx => match pdiv (#8 * h * k ** 2) (ghk_dt s ** 4 * hg4 * ghk) with Err e => Err e | Ok vddx => Ok (vx, vdx, vddx) end
      end
  end.
(** benedict_bornder_constants (1075-1080), for g in [-1, 1] if critical. *)
Definition benedict_bornder_py (g : sc o) (critical : bool) : res (sc o * sc o) :=
  let g_sqr := g ** 2 in
  match (if critical then pdiv (sdiv o #4 #5 * (#2 - g_sqr - #2 * ssqrt o (#1 - g_sqr))) g_sqr else pdiv g_sqr (#2 - g)) with
  | Err e => Err e
  | Ok h => Ok (g, h)
  end.
End Div.
