(** * Vocabulary for comparing two runs of a KalmanFilter. *)
From mathcomp Require Import all_ssreflect all_algebra.
From Verif Require Import Ops Exact Spec Model_KF.
Set Implicit Arguments.
Unset Strict Implicit.
Unset Printing Implicit Defensive.
Import Order.TTheory GRing.Theory Num.Theory.
Local Open Scope ring_scope.

Section SpecOrder.
Variable F : realFieldType.
Variables (fsqrt fexp flog : F -> F).
Notation EO := (exactO fsqrt fexp flog).
Variables n m l : nat.
Notation kf := (kf EO n m l).
Notation kf_call := (kf_call EO n m l).

(** The covariance an optional scalar-or-matrix argument stands for. *)
Definition noise k (a : sm EO k) : 'M[F]_k :=
  match a with Scal q => q *: 1%:M | Mat A => A end.

(** *** A better-informed run and a worse-informed one *)
(** Both arguments absent, or the first noise is at most the second. *)
Definition noise_le k (a b : option (sm EO k)) : Prop :=
  match a, b with
  | None, None => True
  | Some a, Some b => mle (noise a) (noise b)
  | _, _ => False
  end.

(** The same call with at least as much noise; a measurement may be missing in
    the second run only. *)
Definition worse_call (c d : kf_call) : Prop :=
  match c, d with
  | CPredict _ _ A Q, CPredict _ _ A' Q' => A = A' /\ noise_le Q Q'
  | CUpdate z R H, CUpdate z' R' H' => [/\ z = None -> z' = None, H = H' & noise_le R R']
  | _, _ => False
  end.

(** The same model with at least as much noise. *)
Definition worse_cfg (s t : kf) : Prop :=
  [/\ kf_F s = kf_F t, kf_H s = kf_H t, mle (kf_Q s : 'M[F]_n) (kf_Q t),
      mle (kf_R s : 'M[F]_m) (kf_R t) & (kf_alpha_sq s : F) <= (kf_alpha_sq t : F)].

(** At least as much uncertainty. *)
Definition worse_cov (s t : kf) : Prop :=
  [/\ mle (kf_P s : 'M[F]_n) (kf_P t), mle (kf_P_prior s : 'M[F]_n) (kf_P_prior t) &
      mle (kf_P_post s : 'M[F]_n) (kf_P_post t)].

(** *** All covariances multiplied by [c] *)
Variable c : F.
Definition scaled_arg k (a : option (sm EO k)) : option (sm EO k) :=
  match a with
  | None => None
  | Some (Scal q) => Some (@Scal EO k (c * q))
  | Some (Mat A) => Some (@Mat EO k (c *: A))
  end.

Definition scaled_call (k : kf_call) : kf_call :=
  match k with
  | CPredict u B A Q => @CPredict EO n m l u B A (scaled_arg Q)
  | CUpdate z R H => @CUpdate EO n m l z (scaled_arg R) H
  | CUpdateCorr z R H => @CUpdateCorr EO n m l z (scaled_arg R) H
  | CUpdateSeq k linv start z R H => @CUpdateSeq EO n m l k linv start z (scaled_arg R) H
  | k => k
  end.

(** The block updates of the history use an exact inverse. *)
Definition seq_inv_exact (k : kf_call) : Prop :=
  match k with
  | CUpdateSeq k linv _ _ _ _ => forall A : 'M[F]_k, linv (A : M EO k k) = mx_inv A
  | _ => True
  end.

(** Same model, same estimate, every covariance multiplied by [c]. *)
Definition scaled (s t : kf) : Prop :=
  [/\ kf_P t = c *: (kf_P s : 'M[F]_n), kf_Q t = c *: (kf_Q s : 'M[F]_n),
      kf_R t = c *: (kf_R s : 'M[F]_m), kf_M t = c *: (kf_M s : 'M[F]_(n,m)) &
      kf_S t = c *: (kf_S s : 'M[F]_m)] /\
  [/\ kf_SI t = c^-1 *: (kf_SI s : 'M[F]_m), kf_P_prior t = c *: (kf_P_prior s : 'M[F]_n) & kf_P_post t = c *: (kf_P_post s : 'M[F]_n)] /\
  [/\ kf_x t = kf_x s, kf_x_prior t = kf_x_prior s, kf_x_post t = kf_x_post s,
      kf_y t = kf_y s & kf_K t = kf_K s] /\
  [/\ kf_F t = kf_F s, kf_H t = kf_H s, kf_B t = kf_B s & kf_alpha_sq t = kf_alpha_sq s].

(** *** Superposition of two runs *)
Variables a b : F.
Definition comb p (u v w : 'cV[F]_p) : Prop := w = a *: u + b *: v.
(** All three absent, or all three present and the third is the combination. *)
Definition comb_arg p (u v w : option 'cV[F]_p) : Prop :=
  match u, v, w with
  | None, None, None => True
  | Some u, Some v, Some w => comb u v w
  | _, _, _ => False
  end.

Definition comb_call (c d e : kf_call) : Prop :=
  match c, d, e with
  | CPredict u B A Q, CPredict u' B' A' Q', CPredict u'' B'' A'' Q'' =>
      comb_arg u u' u'' /\ [/\ B = B', B = B'', A = A', A = A'' & Q = Q' /\ Q = Q'']
  | CUpdate z R H, CUpdate z' R' H', CUpdate z'' R'' H'' =>
      comb_arg z z' z'' /\ [/\ R = R', R = R'', H = H' & H = H'']
  | CPredictSS u B, CPredictSS u' B', CPredictSS u'' B'' =>
      comb u u' u'' /\ B = B' /\ B = B''
  | CUpdateSS z, CUpdateSS z', CUpdateSS z'' => comb_arg z z' z''
  | CUpdateCorr z R H, CUpdateCorr z' R' H', CUpdateCorr z'' R'' H'' =>
      comb_arg z z' z'' /\ [/\ R = R', R = R'', H = H' & H = H'']
  | CSetAlpha v, CSetAlpha v', CSetAlpha v'' => v = v' /\ v = v''
  | _, _, _ => False
  end.

(** The third estimate is the combination of the first two. *)
Definition comb_est (s t w : kf) : Prop :=
  [/\ comb (kf_x s) (kf_x t) (kf_x w), comb (kf_x_prior s) (kf_x_prior t) (kf_x_prior w),
      comb (kf_x_post s) (kf_x_post t) (kf_x_post w) & comb (kf_y s) (kf_y t) (kf_y w)].
End SpecOrder.
