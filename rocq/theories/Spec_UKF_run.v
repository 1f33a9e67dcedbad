(** * UnscentedKalmanFilter driven through a linear history (Spec_Lin.v). *)
From Coq Require Import List Bool.
From Verif Require Import Ops Model_KF Model_UKF Spec_Lin Proof_KF.
Import ListNotations.
Set Implicit Arguments.
Unset Strict Implicit.
Local Open Scope np_scope.

Section S.
Variable o : nops.
Variables n m l k : nat.

(** The estimate, the stored prior and the stored posterior. *)
Record est := mkEst { e1 : M o n 1; e2 : M o n n; e3 : M o n 1; e4 : M o n n; e5 : M o n 1; e6 : M o n n }.
Definition kf_est (s : kf o n m l) : est :=
  mkEst (kf_x s) (kf_P s) (kf_x_prior s) (kf_P_prior s) (kf_x_post s) (kf_P_post s).
Definition uk_est (s : uk_st o n m k) : est :=
  mkEst (u_x s)^T (u_P s) (u_x_prior s)^T (u_P_prior s) (u_x_post s)^T (u_P_post s).

(** What every call leaves alone: the sigma-point object, the weights, the residual functions (possibly
    hand-written ones), the sum function and inv. *)
Record uk_base := mkBase {
  b_pts : points o n k;
  b_dt : sc o;
  b_rx : option (M o 1 n -> M o 1 n -> M o 1 n);
  b_rz : option (M o 1 m -> M o 1 m -> M o 1 m);
  b_add : option (M o 1 n -> M o 1 n -> M o 1 n);
  b_inv : M o m m -> option (M o m m) }.

(** The linear functions handed to the filter, on 1-D arrays. *)
Definition lin_fx (F : M o n n) (B : option (M o n l)) (u : option (M o l 1)) (x : M o 1 n) (dt : sc o) : M o 1 n :=
  match B, u with
  | Some B, Some u => x @ F^T + (B @ u)^T
  | _, _ => x @ F^T
  end.
Definition lin_hx (H : M o m n) (x : M o 1 n) : M o 1 m := x @ H^T.

Definition uk_of (b : uk_base) (dQ : M o n n) (dR : M o m m) (c : lin_call o n m l) : uk_cfg o n m k * uk_call o n m :=
  match c with
  | LPredict F Q B u =>
      (uk_config Q dR (b_dt b) (fun x => mslice x 0 0 1 m) (lin_fx F B u) (b_pts b) None None (b_rx b) (b_rz b) (b_add b) (b_inv b),
       UPredict m None None)
  | LUpdate z R H =>
      (uk_config dQ R (b_dt b) (lin_hx H) (fun x _ => x) (b_pts b) None None (b_rx b) (b_rz b) (b_add b) (b_inv b),
       UUpdate (option_map mtr z) None None)
  end.
Definition uk_lin_step b dQ dR c (s : uk_st o n m k) := let (cf, a) := uk_of b dQ dR c in uk_step cf a s.
(** The state after a history in which no call raised. *)
Fixpoint uk_lin_run b dQ dR (cs : list (lin_call o n m l)) (s : uk_st o n m k) : option (uk_st o n m k) :=
  match cs with
  | [] => Some s
  | c :: cs => match uk_lin_step b dQ dR c s with (s, None) => uk_lin_run b dQ dR cs s | (_, Some _) => None end
  end.

(** Histories in which each measurement comes after a predict with no other measurement in between
    (missing measurements do not count). *)
Fixpoint one_per_predict (predicted : bool) (cs : list (lin_call o n m l)) : bool :=
  match cs with
  | [] => true
  | LPredict _ _ _ _ :: cs => one_per_predict true cs
  | LUpdate None _ _ :: cs => one_per_predict predicted cs
  | LUpdate (Some _) _ _ :: cs => predicted && one_per_predict false cs
  end.

Lemma est_predict F Q B u (s : kf o n m l) : kf_B s = None ->
  let x := apply_control F (kf_x s) B u in
  let P := mscale (kf_alpha_sq s) ((F @ kf_P s) @ F^T) + Q in
  let s' := kf_predict u B (Some F) (Some (Mat Q)) s in
  kf_est s' = mkEst x P x P (kf_x_post s) (kf_P_post s) /\
  kf_B s' = None /\ kf_alpha_sq s' = kf_alpha_sq s /\ kf_inv s' = kf_inv s.
Proof. intros h. unfold kf_predict. rewrite h. destruct s; cbn in *. subst. destruct B; repeat split. Qed.

Lemma est_update z R H (s : kf o n m l) r : kf_update (Some z) (Some (Mat R)) (Some H) s = r ->
  let S := H @ (kf_P s @ H^T) + R in
  let y := z - H @ kf_x s in
  match kf_inv s S with
  | None => snd r = Some LinAlgError /\ kf_est (fst r) = kf_est s
  | Some SI =>
      let K := (kf_P s @ H^T) @ SI in
      let x := kf_x s + K @ y in
      let P := joseph (kf_P s) K H R in
      snd r = None /\ kf_est (fst r) = mkEst x P (kf_x_prior s) (kf_P_prior s) x P
  end /\ kf_B (fst r) = kf_B s /\ kf_alpha_sq (fst r) = kf_alpha_sq s /\ kf_inv (fst r) = kf_inv s.
Proof.
  intros <-. unfold kf_update. destruct s; cbn. destruct (kf_inv _) as [SI|]; cbn; repeat split.
Qed.
Lemma est_skip R H (s : kf o n m l) :
  let r := kf_update None R H s in
  snd r = None /\ kf_est (fst r) = mkEst (kf_x s) (kf_P s) (kf_x_prior s) (kf_P_prior s) (kf_x s) (kf_P s) /\
  kf_B (fst r) = kf_B s /\ kf_alpha_sq (fst r) = kf_alpha_sq s /\ kf_inv (fst r) = kf_inv s.
Proof. destruct s; unfold kf_est; kf_compute; repeat split. Qed.
End S.
