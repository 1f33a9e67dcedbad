(** * Vocabulary: the law of a whole measurement record, without any filtering.

    [os] lists predictions, measurements and missing measurements; a measurement may
    differ between outcomes [t].  The record of all measurements so far is one long
    vector.  Its mean and covariance, and its covariance with the state, follow from the
    linear model alone: nothing below conditions on a measurement. *)
From mathcomp Require Import all_ssreflect all_algebra.
From Verif Require Import Ops Exact Spec Model_KF Spec_KF Spec_KF_exact Spec_Stat.
Set Implicit Arguments.
Unset Strict Implicit.
Unset Printing Implicit Defensive.
Import Order.TTheory GRing.Theory Num.Theory.
Local Open Scope ring_scope.

Section SpecJoint.
Variable F : realFieldType.
Variables (fsqrt fexp flog : F -> F).
Notation EO := (exactO fsqrt fexp flog).
Variables n m l : nat.
Notation kf := (kf EO n m l).
Notation kf_call := (kf_call EO n m l).
Variable T : Type.

Inductive obs :=
| OPredict (u : option 'cV[F]_l) (B : option 'M[F]_(n, l)) (A : option 'M[F]_n) (Q : option (sm EO n))
| OMeasure (z : T -> 'cV[F]_m) (R : option (sm EO m)) (H : option 'M[F]_(m, n))
| OMissing (R : option (sm EO m)) (H : option 'M[F]_(m, n)).

(** The call the filter of outcome [t] receives. *)
Definition call_of (t : T) (c : obs) : kf_call :=
  match c with
  | OPredict u B A Q => @CPredict EO n m l u B A Q
  | OMeasure z R H => @CUpdate EO n m l (Some (z t)) R H
  | OMissing R H => @CUpdate EO n m l None R H
  end.
Definition psd_obs (c : obs) : Prop :=
  match c with OPredict _ _ _ Q => psd_arg Q | OMeasure _ R _ => psd_arg R | OMissing _ _ => True end.

(** Mean and covariance of the state, mean and covariance of the record, covariance of
    the state with the record, and the record itself. *)
Record joint := Joint {
  j_k : nat;
  j_mx : 'cV[F]_n; j_Px : 'M[F]_n;
  j_mz : 'cV[F]_j_k; j_V : 'M[F]_j_k; j_C : 'M[F]_(n, j_k);
  j_z : T -> 'cV[F]_j_k }.

(** Nothing has been measured yet. *)
Definition joint_start (s : kf) : joint :=
  @Joint 0 (kf_x s) (kf_P s) 0 0 0 (fun=> 0).
Definition joint_step (s : kf) (c : obs) (j : joint) : joint :=
  match c with
  | OPredict u B A Q =>
      let A0 := opt_or (kf_F s : 'M[F]_n) A in
      Joint (A0 *m j_mx j + input s B u) (A0 *m j_Px j *m A0^T + sm_or (o := EO) (kf_Q s) Q)
        (j_mz j) (j_V j) (A0 *m j_C j) (j_z j)
  | OMeasure z R H =>
      let H0 := Hm s H in
      @Joint (j_k j + m) (j_mx j) (j_Px j)
        (col_mx (j_mz j) (H0 *m j_mx j))
        (block_mx (j_V j) ((j_C j)^T *m H0^T) (H0 *m j_C j) (H0 *m j_Px j *m H0^T + Rm s R))
        (row_mx (j_C j) (j_Px j *m H0^T))
        (fun t => col_mx (j_z j t) (z t))
  | OMissing _ _ => j
  end.
Fixpoint joint_run (s : kf) (os : list obs) (j : joint) : joint :=
  match os with nil => j | c :: os => joint_run s os (joint_step s c j) end.

(** What is read from the filter after each measurement. *)
Fixpoint reads (X : Type) (f : kf -> X) (cs : list kf_call) (s : kf) : list X :=
  match cs with
  | nil => nil
  | c :: cs =>
      let s' := fst (kf_step c s) in
      if c is CUpdate (Some _) _ _ then f s' :: reads f cs s' else reads f cs s'
  end.

(** The logarithm of the Gaussian density; [log2pi] is the logarithm of two pi. *)
Definition log_density (log2pi : F) k (z mu : 'cV[F]_k) (V : 'M[F]_k) : F :=
  - (k%:R * log2pi + flog (\det V) + qf (invmx V) (z - mu)) / 2%:R.
End SpecJoint.

(** The measurements of a random target (Spec_Stat), as observations. *)
Section Target.
Variable F : realFieldType.
Variables (fsqrt fexp flog : F -> F).
Notation EO := (exactO fsqrt fexp flog).
Variables n m l : nat.
Variables (T : finType).
Fixpoint obs_of (s : kf EO n m l) (es : list (event fsqrt fexp flog n m l T)) (X : T -> 'cV[F]_n) :
    list (obs fsqrt fexp flog n m l T) :=
  match es with
  | nil => nil
  | Move u B A Q w :: es =>
      @OPredict F fsqrt fexp flog n m l T u B A Q :: obs_of s es (fun t => opt_or (kf_F s : 'M[F]_n) A *m X t + input s B u + w t)
  | Look R H v :: es => @OMeasure F fsqrt fexp flog n m l T (fun t => Hm s H *m X t + v t) R H :: obs_of s es X
  | Miss :: es => @OMissing F fsqrt fexp flog n m l T None None :: obs_of s es X
  end.
End Target.
