(** * Vocabulary for the scalar filters (real numbers). *)
From Coq Require Import List Reals.
From Verif Require Import Ops RealOps Model_GH.
Import ListNotations.
Open Scope R_scope.

(** Finite ensembles: weighted samples and expectations. *)
Definition ex {A : Type} (e : list (R * A)) (f : A -> R) : R :=
  fold_right (fun wa acc => fst wa * f (snd wa) + acc) 0 e.
Definition ensemble {A : Type} (e : list (R * A)) : Prop :=
  Forall (fun wa => 0 <= fst wa) e /\ ex e (fun _ => 1) = 1.
(** Every member changed by [f]. *)
Definition emap {A B : Type} (f : A -> B) (e : list (R * A)) : list (R * B) :=
  map (fun wa => (fst wa, f (snd wa))) e.

(** Repeated updates, with optional gains. *)
Definition gh_run (steps : list (R * option R * option R)) (s : gh RS) : gh RS :=
  fold_left (fun s c => gh_update (o:=RS) (fst (fst c)) (snd (fst c)) (snd c) s) steps s.
Definition plain (zs : list R) : list (R * option R * option R) := map (fun z => (z, None, None)) zs.

Definition ghk_run (steps : list (R * (option R * option R * option R))) (s : ghk RS) : ghk RS :=
  fold_left (fun s c => ghk_update (o:=RS) (fst c) (fst (fst (snd c))) (snd (fst (snd c))) (snd (snd c)) s) steps s.

(** Measurements of a target at p moving with velocity v, plus the given errors. *)
Fixpoint line_meas (p v dt : R) (steps : list (R * option R * option R)) : list (R * option R * option R) :=
  match steps with
  | [] => []
  | (e, g, h) :: steps => (p + v * dt + e, g, h) :: line_meas (p + v * dt) v dt steps
  end.

(** The same with acceleration a. *)
Fixpoint quad_meas (p v a dt : R) (steps : list (R * (option R * option R * option R))) :
    list (R * (option R * option R * option R)) :=
  match steps with
  | [] => []
  | (e, g) :: steps => (p + v * dt + a * dt ^ 2 / 2 + e, g) ::
      quad_meas (p + v * dt + a * dt ^ 2 / 2) (v + a * dt) a dt steps
  end.

(** The filter seen relative to a target: x, dx (, ddx) replaced by their errors. *)
Definition gh_err (p v : R) (s : gh RS) : gh RS :=
  mkGH (o:=RS) (gh_x s - p) (gh_dx s - v) (gh_dt s) (gh_g s) (gh_h s)
    (gh_x_prediction s) (gh_dx_prediction s) (gh_y s) (gh_z s).
Definition ghk_err (p v a : R) (s : ghk RS) : ghk RS :=
  mkGHK (o:=RS) (ghk_x s - p) (ghk_dx s - v) (ghk_ddx s - a)
    (ghk_x_prediction s) (ghk_dx_prediction s) (ghk_ddx_prediction s) (ghk_dt s)
    (ghk_g s) (ghk_h s) (ghk_k s) (ghk_y s) (ghk_z s).

(** Sum over data listed latest first, with the age in steps. *)
Fixpoint asum (f : nat -> R -> R) (a : nat) (zs : list R) : R :=
  match zs with
  | [] => 0
  | z :: zs => f a z + asum f (S a) zs
  end.

(** The polynomial with value c0 and derivatives c1, c2 now, [a] steps ago. *)
Definition poly (dt c0 c1 c2 : R) (a : nat) : R :=
  c0 - c1 * (INR a * dt) + c2 * (INR a * dt) ^ 2 / 2.

(** Sum of squared residuals of chronological data [zs]. *)
Definition sse (q : nat -> R) (zs : list R) : R := asum (fun a z => (z - q a) ^ 2) 0 (rev zs).

(** Coefficients of a polynomial of degree at most [order]. *)
Definition degree_le (order : nat) (c1 c2 : R) : Prop :=
  ((order < 1)%nat -> c1 = 0) /\ ((order < 2)%nat -> c2 = 0).

(** [c] is a least-squares polynomial through the data. *)
Definition best_poly (order : nat) (dt : R) (zs : list R) (c0 c1 c2 : R) : Prop :=
  degree_le order c1 c2 /\
  forall d0 d1 d2, degree_le order d1 d2 ->
    sse (poly dt c0 c1 c2) zs <= sse (poly dt d0 d1 d2) zs.
Definition only_best_poly (order : nat) (dt : R) (zs : list R) (c0 c1 c2 : R) : Prop :=
  forall d0 d1 d2, best_poly order dt zs d0 d1 d2 -> d0 = c0 /\ d1 = c1 /\ d2 = c2.
