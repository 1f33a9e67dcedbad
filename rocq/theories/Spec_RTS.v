(** * Vocabulary for the fixed-interval smoother: the cost of a trajectory. *)
From mathcomp Require Import all_ssreflect all_algebra.
From Verif Require Import Spec.
Set Implicit Arguments.
Unset Strict Implicit.
Unset Printing Implicit Defensive.
Import GRing.Theory.
Local Open Scope ring_scope.

Section Spec.
Variables (F : realFieldType) (n m : nat).

(** One epoch: the state moves by [ep_F] with noise covariance [ep_Q]; then
    [ep_z], if there is one, measures [ep_H] times the state with noise
    covariance [ep_R]. *)
Record epoch := Epoch { ep_F : 'M[F]_n; ep_Q : 'M[F]_n; ep_H : 'M[F]_(m,n); ep_R : 'M[F]_m; ep_z : option 'cV[F]_m }.

Definition good_epoch (e : epoch) : Prop := pd (ep_Q e) /\ pd (ep_R e).

Definition meas_cost (e : epoch) (v : 'cV[F]_n) : F :=
  if ep_z e is Some z then qf (invmx (ep_R e)) (z - ep_H e *m v) else 0.

(** Process and measurement cost of moving from [v] along [vs]. *)
Fixpoint links (v : 'cV[F]_n) (es : seq epoch) (vs : seq 'cV[F]_n) : F :=
  match es, vs with
  | e :: es, w :: ws => qf (invmx (ep_Q e)) (w - ep_F e *m v) + meas_cost e w + links w es ws
  | _, _ => 0
  end.

(** Weighted least-squares cost of the trajectory [vs] (one state per epoch) when the
    state before the first epoch is [x] with covariance [P]. *)
Definition traj_cost (x : 'cV[F]_n) (P : 'M[F]_n) (es : seq epoch) (vs : seq 'cV[F]_n) : F :=
  match es, vs with
  | e :: es, w :: ws =>
      qf (invmx (ep_F e *m P *m (ep_F e)^T + ep_Q e)) (w - ep_F e *m x) + meas_cost e w + links w es ws
  | _, _ => 0
  end.
End Spec.
