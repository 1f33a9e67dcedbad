(** * Vocabulary for forgetting the initial conditions of a KalmanFilter. *)
From mathcomp Require Import all_ssreflect all_algebra.
From Verif Require Import Ops Exact Spec Model_KF Spec_KF_order.
Set Implicit Arguments.
Unset Strict Implicit.
Unset Printing Implicit Defensive.
Import Order.TTheory GRing.Theory Num.Theory.
Local Open Scope ring_scope.

Section SpecForget.
Variable F : realFieldType.
Variables (fsqrt fexp flog : F -> F).
Notation EO := (exactO fsqrt fexp flog).
Variables n m l : nat.
Notation kf := (kf EO n m l).
Notation kf_call := (kf_call EO n m l).

(** The process noise a prediction uses. *)
Definition used_Q (s : kf) (Q : option (sm EO n)) : 'M[F]_n :=
  match Q with None => kf_Q s | Some a => noise a end.

(** A history of predictions and updates in which the process noise is, at every prediction, at least the fraction
    [d] of the predicted covariance. *)
Fixpoint noisy (d : F) (cs : list kf_call) (s : kf) : Prop :=
  match cs with
  | nil => True
  | c :: cs =>
      match c with
      | CPredict _ _ _ Q => mle (d *: (kf_P (fst (kf_step c s)) : 'M[F]_n)) (used_Q s Q)
      | CUpdate _ _ _ => True
      | _ => False
      end /\ noisy d cs (fst (kf_step c s))
  end.

(** The number of predictions. *)
Fixpoint predictions (cs : list kf_call) : nat :=
  match cs with
  | nil => 0
  | CPredict _ _ _ _ :: cs => (predictions cs).+1
  | _ :: cs => predictions cs
  end.

(** The same model. *)
Definition same_model (s t : kf) : Prop :=
  [/\ kf_F s = kf_F t, kf_H s = kf_H t, kf_Q s = kf_Q t, kf_R s = kf_R t & kf_alpha_sq s = kf_alpha_sq t] /\ kf_B s = kf_B t.

(** Measurement after measurement, each followed by a prediction, with the filter's own matrices. *)
Fixpoint cycles (zus : list ('cV[F]_m * option 'cV[F]_l)) : list kf_call :=
  match zus with
  | nil => nil
  | (z, u) :: zus => @CUpdate EO n m l (Some z) None None :: @CPredict EO n m l u None None None :: cycles zus
  end.

(** Every component of the state is measured ([L] recovers the state from a measurement), and the process noise is at
    least the fraction [d] of what one prediction makes of the error of such a recovery. *)
Definition observed (d : F) (L : 'M[F]_(n,m)) (s : kf) : Prop :=
  let A := kf_F s : 'M[F]_n in
  L *m kf_H s = 1%:M /\
  mle (d *: ((kf_alpha_sq s : F) *: (A *m (L *m kf_R s *m L^T) *m A^T) + kf_Q s)) (kf_Q s).
End SpecForget.
