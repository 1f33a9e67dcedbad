(** * Vocabulary: the joint law of an earlier state with the whole measurement record.

    On top of Spec_Joint: besides the state now and the record, a state of the past is kept.  Nothing
    conditions on a measurement. *)
From mathcomp Require Import all_ssreflect all_algebra.
From Verif Require Import Ops Exact Spec Model_KF Spec_KF Spec_KF_exact Spec_RTS Spec_Stat Spec_Joint.
Set Implicit Arguments.
Unset Strict Implicit.
Unset Printing Implicit Defensive.
Import Order.TTheory GRing.Theory Num.Theory.
Local Open Scope ring_scope.

Section SpecSmooth.
Variable F : realFieldType.
Variables (fsqrt fexp flog : F -> F).
Notation EO := (exactO fsqrt fexp flog).
Variables n m l : nat.
Notation kf := (kf EO n m l).
Variable T : Type.
Notation obs := (obs fsqrt fexp flog n m l T).
Notation joint := (joint F n T).

(** Mean and covariance of the kept state, its covariance with the state now and with the record. *)
Record past := Past {
  p_j : joint;
  p_m : 'cV[F]_n; p_P : 'M[F]_n; p_X : 'M[F]_n; p_Z : 'M[F]_(n, j_k p_j) }.
(** Keep the state as it is now. *)
Definition past_of (j : joint) : past := @Past j (j_mx j) (j_Px j) (j_Px j) (j_C j).
Definition past_step (s : kf) (c : obs) (p : past) : past :=
  match c with
  | OPredict u B A Q =>
      @Past (joint_step s (@OPredict F fsqrt fexp flog n m l T u B A Q) (p_j p)) (p_m p) (p_P p)
        (p_X p *m (opt_or (kf_F s : 'M[F]_n) A)^T) (p_Z p)
  | OMeasure z R H =>
      @Past (joint_step s (@OMeasure F fsqrt fexp flog n m l T z R H) (p_j p)) (p_m p) (p_P p) (p_X p)
        (row_mx (p_Z p) (p_X p *m (Hm s H)^T))
  | OMissing R H => p
  end.
Fixpoint past_run (s : kf) (os : list obs) (p : past) : past :=
  match os with nil => p | c :: os => past_run s os (past_step s c p) end.

(** Mean and covariance of the kept state given the record of outcome t. *)
Definition given_mean (t : T) (p : past) : 'cV[F]_n :=
  p_m p + p_Z p *m invmx (j_V (p_j p)) *m (j_z (p_j p) t - j_mz (p_j p)).
Definition given_cov (p : past) : 'M[F]_n := p_P p - p_Z p *m invmx (j_V (p_j p)) *m (p_Z p)^T.
End SpecSmooth.

(** The epochs of Spec_RTS as observations. *)
Section Epochs.
Variable F : realFieldType.
Variables (fsqrt fexp flog : F -> F).
Notation EO := (exactO fsqrt fexp flog).
Variables n m l : nat.
Definition epoch_obs (e : epoch F n m) : list (obs fsqrt fexp flog n m l unit) :=
  [:: @OPredict F fsqrt fexp flog n m l unit None None (Some (ep_F e)) (Some (@Mat EO n (ep_Q e)));
      if ep_z e is Some z then @OMeasure F fsqrt fexp flog n m l unit (fun=> z) (Some (@Mat EO m (ep_R e))) (Some (ep_H e))
      else @OMissing F fsqrt fexp flog n m l unit (Some (@Mat EO m (ep_R e))) (Some (ep_H e))].
Definition epochs_obs (es : seq (epoch F n m)) : list (obs fsqrt fexp flog n m l unit) := flatten (map epoch_obs es).

(** Any process noise covariance, singular ones included. *)
Definition mild_epoch (e : epoch F n m) : Prop := psd (ep_Q e) /\ pd (ep_R e).
End Epochs.
