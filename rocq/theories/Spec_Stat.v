(** * Vocabulary: a KalmanFilter following a random target.

    Outcomes [t] of a finite probability space; a history is a list of events, the
    same for every outcome except for the noise. *)
From mathcomp Require Import all_ssreflect all_algebra.
From Verif Require Import Ops Exact Spec Model_KF Spec_KF Spec_KF_exact.
Set Implicit Arguments.
Unset Strict Implicit.
Unset Printing Implicit Defensive.
Import Order.TTheory GRing.Theory Num.Theory.
Local Open Scope ring_scope.

Section SpecStat.
Variable F : realFieldType.
Variables (fsqrt fexp flog : F -> F).
Notation EO := (exactO fsqrt fexp flog).
Variables n m l : nat.
Notation kf := (kf EO n m l).
Notation kf_call := (kf_call EO n m l).
Variables (T : finType) (p : T -> F).

Definition probability : Prop := (forall t, 0 <= p t) /\ \sum_t p t = 1.

(** E[f g'] *)
Definition cross a b (f : T -> 'cV[F]_a) (g : T -> 'cV[F]_b) : 'M[F]_(a, b) :=
  mean p (fun t => f t *m (g t)^T).

(** The target moves (and predict is called), is measured (and update is called), or
    a measurement is missing (update(None)).  The options are the arguments given to
    the filter; [w] and [v] are the noises. *)
Inductive event :=
| Move (u : option 'cV[F]_l) (B : option 'M[F]_(n, l)) (A : option 'M[F]_n) (Q : option (sm EO n)) (w : T -> 'cV[F]_n)
| Look (R : option (sm EO m)) (H : option 'M[F]_(m, n)) (v : T -> 'cV[F]_m)
| Miss.

(** The known input B u. *)
Definition input (s : kf) (B : option 'M[F]_(n, l)) (u : option 'cV[F]_l) : 'cV[F]_n :=
  match (if B is None then kf_B s else B), u with
  | Some B, Some u => B *m u
  | _, _ => 0
  end.

(** The target after the events, the calls the filter receives, and the measurements. *)
Fixpoint truth (s : kf) (t : T) (es : list event) (X : 'cV[F]_n) : 'cV[F]_n :=
  match es with
  | nil => X
  | Move u B A Q w :: es => truth s t es (opt_or (kf_F s : 'M[F]_n) A *m X + input s B u + w t)
  | Look R H v :: es => truth s t es X
  | Miss :: es => truth s t es X
  end.
Fixpoint calls (s : kf) (t : T) (es : list event) (X : 'cV[F]_n) : list kf_call :=
  match es with
  | nil => nil
  | Move u B A Q w :: es =>
      @CPredict EO n m l u B A Q :: calls s t es (opt_or (kf_F s : 'M[F]_n) A *m X + input s B u + w t)
  | Look R H v :: es => @CUpdate EO n m l (Some (Hm s H *m X + v t)) R H :: calls s t es X
  | Miss :: es => @CUpdate EO n m l None None None :: calls s t es X
  end.
Fixpoint seen (s : kf) (es : list event) (X : T -> 'cV[F]_n) : list (T -> 'cV[F]_m) :=
  match es with
  | nil => nil
  | Move u B A Q w :: es => seen s es (fun t => opt_or (kf_F s : 'M[F]_n) A *m X t + input s B u + w t)
  | Look R H v :: es => (fun t => Hm s H *m X t + v t) :: seen s es X
  | Miss :: es => seen s es X
  end.

(** [f] is uncorrelated with every noise of the history. *)
Fixpoint uncorr a (f : T -> 'cV[F]_a) (es : list event) : Prop :=
  match es with
  | nil => True
  | Move _ _ _ _ w :: es => cross f w = 0 /\ uncorr f es
  | Look _ _ v :: es => cross f v = 0 /\ uncorr f es
  | Miss :: es => uncorr f es
  end.

(** The noises have mean zero, are mutually uncorrelated, and their covariances are
    related by [rel] to the Q and R the filter uses. *)
Fixpoint white (rel : forall k, 'M[F]_k -> 'M[F]_k -> Prop) (s : kf) (es : list event) : Prop :=
  match es with
  | nil => True
  | Move _ _ _ Q w :: es =>
      [/\ mean p w = 0, rel n (cross w w) (sm_or (o := EO) (kf_Q s) Q), uncorr w es & white rel s es]
  | Look R _ v :: es => [/\ mean p v = 0, rel m (cross v v) (Rm s R), uncorr v es & white rel s es]
  | Miss :: es => white rel s es
  end.

(** The estimate and its error. *)
Definition estimate (s : kf) es (X : T -> 'cV[F]_n) (t : T) : kf := kf_run (calls s t es (X t)) s.
Definition err (s : kf) es (X : T -> 'cV[F]_n) (t : T) : 'cV[F]_n :=
  truth s t es (X t) - kf_x (estimate s es X t).

(** The target starts at [X]: on average where the filter believes, with the
    covariance the filter believes ([rel] is equality or an order), and unrelated to
    the later noises. *)
Definition starts (s : kf) (rel : forall k, 'M[F]_k -> 'M[F]_k -> Prop) (es : list event) (X : T -> 'cV[F]_n) : Prop :=
  let e t := X t - kf_x s in [/\ mean p e = 0, rel n (cross e e) (kf_P s) & uncorr e es].

(** Any other estimate that is an affine function of the measurements. *)
Fixpoint affine (c : 'cV[F]_n) (Gs : list 'M[F]_(n, m)) (zs : list (T -> 'cV[F]_m)) (t : T) : 'cV[F]_n :=
  match Gs, zs with
  | G :: Gs, z :: zs => G *m z t + affine c Gs zs t
  | _, _ => c
  end.
End SpecStat.
Arguments Move {F fsqrt fexp flog n m l T}.
Arguments Look {F fsqrt fexp flog n m l T}.
Arguments Miss {F fsqrt fexp flog n m l T}.
