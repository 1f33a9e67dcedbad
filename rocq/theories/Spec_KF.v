(** * Vocabulary for properties of call histories on a KalmanFilter. *)
From Coq Require Import List.
From Verif Require Import Ops Model_KF.
Import ListNotations.

Section SpecKF.
Context {o : nops} {n m l : nat}.
Notation kf := (kf o n m l).
Notation kf_call := (kf_call o n m l).

(** Calls that are predictions / updates. *)
Definition is_predict (c : kf_call) : bool :=
  match c with CPredict _ _ _ _ | CPredictSS _ _ => true | _ => false end.
Definition is_update (c : kf_call) : bool :=
  match c with
  | CUpdate _ _ _ | CUpdateSS _ | CUpdateCorr _ _ _ | CUpdateSeq _ _ _ _ _ _ => true
  | _ => false end.

(** [all_updates_fail cs s]: every update attempted in the history raises. *)
Fixpoint all_updates_fail (cs : list kf_call) (s : kf) : Prop :=
  match cs with
  | [] => True
  | c :: cs => (is_update c = true -> snd (kf_step c s) <> None)
               /\ all_updates_fail cs (fst (kf_step c s))
  end.

(** The calls a user would make by hand for one epoch of batch_filter. *)
Definition row_calls (update_first : bool) (r : row o n m l) : list kf_call :=
  let p := CPredict (r_u r) (r_B r) (r_F r) (r_Q r) in
  let u := CUpdate (r_z r) (r_R r) (r_H r) in
  if update_first then [u; p] else [p; u].

(** *** Two runs with different measurement values *)
Definition same_cov (a b : kf) : Prop :=
  kf_P a = kf_P b /\ kf_Q a = kf_Q b /\ kf_F a = kf_F b /\ kf_H a = kf_H b /\ kf_R a = kf_R b /\
  kf_alpha_sq a = kf_alpha_sq b /\ kf_M a = kf_M b /\ kf_K a = kf_K b /\ kf_S a = kf_S b /\
  kf_SI a = kf_SI b /\ kf_P_prior a = kf_P_prior b /\ kf_P_post a = kf_P_post b /\
  kf_inv a = kf_inv b.

(** Same call up to the measurement and control values. *)
Definition same_shape (c d : kf_call) : Prop :=
  match c, d with
  | CPredict _ _ F Q, CPredict _ _ F' Q' => F = F' /\ Q = Q'
  | CUpdate z R H, CUpdate z' R' H' => (z = None <-> z' = None) /\ R = R' /\ H = H'
  | CPredictSS _ _, CPredictSS _ _ => True
  | CUpdateSS z, CUpdateSS z' => True
  | CUpdateCorr z R H, CUpdateCorr z' R' H' => (z = None <-> z' = None) /\ R = R' /\ H = H'
  | CSetAlpha a, CSetAlpha a' => a = a'
  | _, _ => False
  end.

(** No call of the history raises. *)
Fixpoint all_ok (cs : list kf_call) (s : kf) : Prop :=
  match cs with
  | [] => True
  | c :: cs => snd (kf_step c s) = None /\ all_ok cs (fst (kf_step c s))
  end.

End SpecKF.
