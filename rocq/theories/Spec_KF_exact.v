(** * Vocabulary for the exact-arithmetic properties of KalmanFilter. *)
From mathcomp Require Import all_ssreflect all_algebra.
From Verif Require Import Ops Exact Spec Model_KF.
Set Implicit Arguments.
Unset Strict Implicit.
Unset Printing Implicit Defensive.
Import Order.TTheory GRing.Theory Num.Theory.
Local Open Scope ring_scope.

Section SpecExact.
Variable F : realFieldType.
Variables (fsqrt fexp flog : F -> F).
Notation EO := (exactO fsqrt fexp flog).

(** An optional noise argument is a legitimate covariance. *)
Definition psd_arg k (a : option (sm EO k)) : Prop :=
  match a with None => True | Some (Scal q) => 0 <= (q : F) | Some (Mat A) => psd (A : 'M[F]_k) end.

(** The mean-square error matrix of the estimate [x + G (z - H x)] when the
    prior has error covariance P and the measurement R, uncorrelated. *)
Definition est_cov n m (P : 'M[F]_n) (H : 'M[F]_(m,n)) (R : 'M[F]_m) (G : 'M[F]_(n,m)) : 'M[F]_n :=
  (1%:M - G *m H) *m P *m (1%:M - G *m H)^T + G *m R *m G^T.

(** Mean-square-error matrix when the prior error and the measurement noise
    have cross covariance C: noise = z - H x_true, error = x_true - x. *)
Definition est_cov_corr n m (P : 'M[F]_n) (H : 'M[F]_(m,n)) (R : 'M[F]_m) (C : 'M[F]_(n,m))
    (G : 'M[F]_(n,m)) : 'M[F]_n :=
  let A := 1%:M - G *m H in
  A *m P *m A^T - A *m C *m G^T - G *m C^T *m A^T + G *m R *m G^T.

(** The cost whose minimiser is the posterior mode. *)
Definition meas_cost n m (P : 'M[F]_n) (H : 'M[F]_(m,n)) (R : 'M[F]_m) (x : 'cV[F]_n) (z : 'cV[F]_m)
    (v : 'cV[F]_n) : F :=
  qf (invmx P) (v - x) + qf (invmx R) (z - H *m v).

(** Weighted sums over a finite ensemble. *)
Definition mean (T : finType) a b (p : T -> F) (f : T -> 'M[F]_(a,b)) : 'M[F]_(a,b) :=
  \sum_t p t *: f t.

Section Filter.
Variables n m l : nat.
Notation kf := (kf EO n m l).
Notation kf_call := (kf_call EO n m l).

(** Every noise passed to a call is a covariance matrix. *)
Definition psd_call (c : kf_call) : Prop :=
  match c with
  | CPredict _ _ _ Q => psd_arg Q
  | CUpdate _ R _ => psd_arg R
  | CUpdateSeq _ _ _ _ R _ => psd_arg R
  | CUpdateCorr z _ _ => z = None
  | _ => True
  end.

(** The filter was configured with covariance matrices. *)
Definition kf_good (s : kf) : Prop :=
  [/\ psd (kf_P s : 'M[F]_n), psd (kf_P_prior s : 'M[F]_n), psd (kf_P_post s : 'M[F]_n),
      psd (kf_Q s : 'M[F]_n) & psd (kf_R s : 'M[F]_m) /\ 0 <= (kf_alpha_sq s : F)].

(** [self.inv] is an exact inverse that raises on singular matrices. *)
Definition inv_exact (s : kf) : Prop := forall A : 'M[F]_m, kf_inv s (A : M EO m m) = mx_inv A.

(** The matrices an update call works with. *)
Definition Hm (s : kf) (H : option 'M[F]_(m,n)) : 'M[F]_(m,n) := opt_or (kf_H s) H.
Definition Rm (s : kf) (R : option (sm EO m)) : 'M[F]_m := sm_or (kf_R s) R.
(** The innovation covariance. *)
Definition innov_cov (s : kf) R H : 'M[F]_m := Hm s H *m (kf_P s *m (Hm s H)^T) + Rm s R.

(** A measurement handed to update_sequential in consecutive blocks of the
    given sizes, starting at row [start]. *)
Fixpoint seq_calls (ks : list nat) (start : nat) (z : 'cV[F]_m) : list kf_call :=
  match ks with
  | nil => nil
  | k :: ks =>
      @CUpdateSeq EO n m l k (@mx_inv F k) start
        (\matrix_(i < k, j < 1) mx_get z (start + i) j : M EO k 1) None None
      :: seq_calls ks (start + k) z
  end.
(** Noise of different blocks is uncorrelated. *)
Definition blocks_uncorrelated (R : 'M[F]_m) (ks : list nat) : Prop :=
  forall b, b \in scanl addn 0%N ks -> forall i j : 'I_m, (i < b)%N -> (b <= j)%N -> R i j = 0.

(** A reading [z] of an independent sensor with noise [R] and model [H]. *)
Record reading := mkReading { rd_z : 'cV[F]_m; rd_R : 'M[F]_m; rd_H : 'M[F]_(m,n) }.
Definition reading_call (r : reading) : kf_call :=
  @CUpdate EO n m l (Some (rd_z r)) (Some (@Mat EO m (rd_R r))) (Some (rd_H r)).

(** *** Change of state coordinates by an invertible matrix [T]. *)
Variable T : 'M[F]_n.
(** The same system and estimate described in the new coordinates. *)
Definition in_coords (s s' : kf) : Prop :=
  [/\ kf_x s' = T *m kf_x s, kf_P s' = T *m kf_P s *m T^T, kf_Q s' = T *m kf_Q s *m T^T,
      kf_F s' = T *m kf_F s *m invmx T & kf_H s' = kf_H s *m invmx T] /\
  [/\ kf_B s' = option_map (fun B : 'M[F]_(n,l) => T *m B) (kf_B s), kf_R s' = kf_R s,
      kf_M s' = T *m kf_M s, kf_alpha_sq s' = kf_alpha_sq s & kf_inv s' = kf_inv s] /\
  [/\ kf_K s' = T *m kf_K s, kf_y s' = kf_y s & kf_S s' = kf_S s] /\
  [/\ kf_x_prior s' = T *m kf_x_prior s, kf_P_prior s' = T *m kf_P_prior s *m T^T,
      kf_x_post s' = T *m kf_x_post s & kf_P_post s' = T *m kf_P_post s *m T^T].
(** The arguments of a call in the new coordinates. *)
Definition call_in_coords (c : kf_call) : kf_call :=
  let tB := option_map (fun B : 'M[F]_(n,l) => T *m B) in
  let tF := option_map (fun A : 'M[F]_n => T *m A *m invmx T) in
  let tH := option_map (fun H : 'M[F]_(m,n) => H *m invmx T) in
  match c with
  | CPredict u B Fm Q =>
      @CPredict EO n m l u (tB B) (tF Fm)
        (if Q is Some q then Some (@Mat EO n (T *m sm_or (o := EO) (mzeros n n) (Some q) *m T^T)) else None)
  | CUpdate z R H => @CUpdate EO n m l z R (tH H)
  | CPredictSS u B => @CPredictSS EO n m l u (tB B)
  | CUpdateSS z => CUpdateSS z
  | CUpdateCorr z R H => @CUpdateCorr EO n m l z R (tH H)
  | CUpdateSeq k linv start z R H =>
      @CUpdateSeq EO n m l k linv start z R (option_map (fun A : 'M[F]_(k,n) => A *m invmx T) H)
  | c => c
  end.
End Filter.
End SpecExact.
