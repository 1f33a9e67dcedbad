(** * C72: the sign of the variance in binary64 arithmetic. *)
From Coq Require Import List Arith Lia Bool ZArith Floats.
From Verif Require Import Ops ListOps Model_KF Model_EKF Proof_Float.
Import ListNotations.
Open Scope nat_scope.

Section Float.
Variables fexp flog : float -> float.
Let o := floatO fexp flog.

(** A 1x1 array that holds NaN or a number that is not negative. *)
Definition nonneg (A : M o 1 1) : Prop :=
  let a : float := mget A 0 0 in is_nan a = true \/ (0 <=? a)%float = true.
Definition sm_nonneg (q : option (sm o 1)) : Prop :=
  match q with
  | None => True
  | Some (Scal v) => let v : float := v in is_nan v = true \/ (0 <=? v)%float = true
  | Some (Mat A) => nonneg A
  end.

Lemma nonneg_nn (A : M o 1 1) : nonneg A <-> nn (mget A 0 0).
Proof. symmetry. apply nn_iff. Qed.
Lemma one_nn : nn 1%float.
Proof. reflexivity. Qed.
Lemma sm_or_nn (d : M o 1 1) q : nonneg d -> sm_nonneg q -> nonneg (sm_or d q).
Proof.
  intros Hd. destruct q as [[v|A]|]; cbn [sm_or sm_nonneg]; auto. intros Hv. apply nonneg_nn.
  apply fmul_nn; [apply nn_iff; exact Hv|apply one_nn].
Qed.
Lemma predict_nn (a : float) (F P Q : M o 1 1) : is_nan a = true \/ (0 <=? a)%float = true -> nonneg P -> nonneg Q ->
  nonneg (madd (@mscale o 1 1 a (mdot (mdot F P) (mtr F))) Q).
Proof.
  intros Ha HP HQ. apply nonneg_nn. apply nonneg_nn in HP. apply nonneg_nn in HQ.
  apply fadd_nn; [|exact HQ]. apply fmul_nn; [apply nn_iff; exact Ha|]. apply fsandwich, HP.
Qed.
Lemma predict_nn' (F P Q : M o 1 1) : nonneg P -> nonneg Q -> nonneg (madd (mdot (mdot F P) (mtr F)) Q).
Proof.
  intros HP HQ. apply nonneg_nn. apply nonneg_nn in HP. apply nonneg_nn in HQ.
  apply fadd_nn; [|exact HQ]. apply fsandwich, HP.
Qed.
Lemma joseph_nn (P : M o 1 1) (K : M o 1 1) (H R : M o 1 1) : nonneg P -> nonneg R -> nonneg (joseph P K H R).
Proof.
  intros HP HR. apply nonneg_nn. apply nonneg_nn in HP. apply nonneg_nn in HR.
  apply fadd_nn; apply fsandwich; assumption.
Qed.
Lemma joseph_nn0 (P : M o 1 1) (K : M o 1 0) (H : M o 0 1) (R : M o 0 0) : nonneg P -> nonneg (joseph P K H R).
Proof.
  intros HP. apply nonneg_nn. apply nonneg_nn in HP.
  apply fadd_nn; [apply fsandwich, HP|reflexivity].
Qed.

Notation kf := (kf o 1 1 1).
(** The Q and R passed to a call are not negative; update_correlated is excluded. *)
Definition sound (c : kf_call o 1 1 1) : Prop :=
  match c with
  | CPredict _ _ _ Q => sm_nonneg Q
  | CUpdate _ R _ => sm_nonneg R
  | @CUpdateSeq _ _ _ _ k _ _ _ R _ => match k as k return option (sm o k) -> Prop with 1 => fun R => sm_nonneg R | _ => fun _ => True end R
  | CUpdateCorr (Some _) _ _ => False
  | _ => True
  end.
Definition good (s : kf) : Prop :=
  nonneg (kf_P s) /\ nonneg (kf_Q s) /\ nonneg (kf_R s) /\ (let a : float := kf_alpha_sq s in is_nan a = true \/ (0 <=? a)%float = true).

Lemma step_good c s : sound c -> good s -> good (fst (kf_step c s)).
Proof.
  intros Hc (HP & HQ & HR & Ha).
  destruct c as [u B F Q|z R H|u B|z|z R H|k linv start z R H|lpdf|lpdf fmin| |v]; cbn [kf_step sound] in *.
  - repeat split; cbn; auto. apply predict_nn; auto. apply sm_or_nn; auto.
  - unfold kf_update. destruct z as [z|]; [|repeat split; auto].
    cbn -[mget joseph o]. destruct (kf_inv s _) as [SI|]; repeat split; auto.
    apply joseph_nn; auto. apply sm_or_nn; auto.
  - repeat split; auto.
  - unfold kf_update_steadystate. destruct z; repeat split; auto.
  - unfold kf_update_correlated. destruct z; [contradiction|repeat split; auto].
  - unfold kf_update_sequential. destruct (start + k <=? 1) eqn:E; [|repeat split; auto]. apply Nat.leb_le in E.
    destruct k as [|[|k]]; [| |lia].
    + cbn [Nat.eqb negb]. destruct (option_map _ _); repeat split; auto. apply joseph_nn0; auto.
    + cbn [Nat.eqb negb]. repeat split; auto. apply joseph_nn; auto. assert (start = 0) by lia; subst start.
      apply sm_or_nn; auto.
  - unfold kf_log_likelihood. destruct (kf_loglik s); repeat split; auto.
  - unfold kf_likelihood, kf_log_likelihood. destruct (kf_lik s); [repeat split; auto|]. destruct (kf_loglik s); repeat split; auto.
  - unfold kf_mahalanobis. destruct (kf_mahal s); repeat split; auto.
  - unfold kf_set_alpha. destruct v as [v|]; [|repeat split; auto]. destruct (sltb o v (s1 o)); repeat split; auto.
    apply nn_iff, fsq_nn.
Qed.

(** A KalmanFilter with one state and one measurement: whatever the transition, the measurement function, the
    measurements, what inv returns and how much is lost to rounding, underflow or overflow, after every history of calls the
    variance is NaN or not negative.  This is what the Joseph form is for. *)
Theorem C72_variance_sign : forall (cs : list (kf_call o 1 1 1)) (s : kf), Forall sound cs -> good s ->
  nonneg (kf_P (kf_run cs s)).
Proof.
  intros cs s H G. cut (good (kf_run cs s)); [intros X; apply X|].
  revert s G; induction H as [|c cs Hc _ IH]; intros s G; [exact G|]. apply (IH (fst (kf_step c s))), step_good; auto.
Qed.

(** So do the extended filter, with any Jacobians and measurement functions, and the fading filter. *)
Definition ek_sound (c : ek_cfg o 1 1 1 * ek_call o 1 1 1) : Prop :=
  nonneg (ec_Q (fst c)) /\ nonneg (ec_R (fst c)) /\ match snd c with EUpdate _ _ _ R _ => sm_nonneg R | _ => True end.
Theorem C72_extended : forall (cs : list (ek_cfg o 1 1 1 * ek_call o 1 1 1)) (s : ek_st o 1 1), Forall ek_sound cs -> nonneg (e_P s) ->
  nonneg (e_P (ek_run cs s)).
Proof.
  intros cs s H. revert s; induction H as [|[c a] cs (HQ & HR & Ha) _ IH]; intros s G; [exact G|].
  apply (IH (fst (ek_step (c, a) s))). clear IH. cbn [fst snd] in *. unfold ek_step; cbn [fst snd].
  destruct a as [u|z hj hx R res|z hj hx u].
  - apply predict_nn'; auto.
  - unfold ek_update. destruct z as [z|]; [|auto]. destruct (ec_inv c _); auto. apply joseph_nn; auto. apply sm_or_nn; auto.
  - unfold ek_predict_update. destruct (ec_inv c _); auto. destruct z as [z|]; auto.
    apply joseph_nn; auto. apply predict_nn'; auto.
Qed.
Definition fk_sound (c : ek_cfg o 1 1 1 * fk_call o 1 1 1) : Prop :=
  nonneg (ec_Q (fst c)) /\ nonneg (ec_R (fst c)) /\
  match snd c with
  | FUpdate _ R _ => sm_nonneg R
  | FPredict _ a => let a : float := a in is_nan a = true \/ (0 <=? a)%float = true
  end.
Theorem C72_fading : forall (cs : list (ek_cfg o 1 1 1 * fk_call o 1 1 1)) (s : ek_st o 1 1), Forall fk_sound cs -> nonneg (e_P s) ->
  nonneg (e_P (fk_run cs s)).
Proof.
  intros cs s H. revert s; induction H as [|[c a] cs (HQ & HR & Ha) _ IH]; intros s G; [exact G|].
  apply (IH (fst (fk_step (c, a) s))). clear IH. cbn [fst snd] in *. unfold fk_step; cbn [fst snd].
  destruct a as [u a|z R H'].
  - apply predict_nn; auto.
  - unfold fk_update. destruct z as [z|]; [|auto]. destruct (ec_inv c _); auto. apply joseph_nn; auto. apply sm_or_nn; auto.
Qed.

(** The filter as constructed, and a history that loses all its digits. *)
Lemma C72_init fmin inv : good (@kf_init o 1 1 1 fmin inv).
Proof. repeat split; right; reflexivity. Qed.
End Float.
Print Assumptions C72_variance_sign.
Print Assumptions C72_extended.
Print Assumptions C72_fading.

Definition fid (x : float) := x.
Definition FO := floatO fid fid.
Definition f1 (a : float) : M FO 1 1 := [[a]].
(** H = 31, R = 2^-60: the term 1 - K H, exactly about 10^-21, is lost to rounding. *)
Definition kfl : kf FO 1 1 1 :=
  set_kf_H (f1 31) (set_kf_R (f1 0x1p-60) (@kf_init FO 1 1 1 0x1p-1022%float (l_inv1 (floatS fid fid)))).
Example C72_applies :
  good fid fid kfl /\ Forall (sound fid fid) [CUpdate (Some (f1 1)) None None; CPredict None None None (Some (@Scal FO 1 0%float))] /\
  kf_P (kf_run [CUpdate (Some (f1 1)) None None; CPredict None None None (Some (@Scal FO 1 0%float))] kfl) = f1 0x1.10c8531d4952fp-70.
Proof. split; [|split]; [repeat split; right; reflexivity|repeat constructor; right; reflexivity|]. vm_compute. reflexivity. Qed.

(** update_correlated with M = 0 is the same update in exact arithmetic, without the Joseph form.  Here it leaves a
    negative variance. *)
Theorem C72_correlated_refuted :
  let P := kf_P (fst (kf_update_correlated (Some (f1 1)) None None kfl)) in
  good fid fid kfl /\ kf_M kfl = f1 0 /\ P = f1 (-0x1p-52) /\ (mget P 0 0 <? 0)%float = true.
Proof. split; [repeat split; right; reflexivity|]. vm_compute. repeat split. Qed.
Print Assumptions C72_correlated_refuted.

(** With two states the Joseph form does not keep the variances positive either.  P is the (positive semidefinite, rank one)
    outer product of (18, 23), the first state is measured with R = 2^-45. *)
Definition kfl2 : kf FO 2 1 1 :=
  set_kf_P ([[324; 414]; [414; 529]]%float : M FO 2 2) (set_kf_H ([[1; 0]]%float : M FO 1 2)
  (set_kf_R (f1 0x1p-45) (@kf_init FO 2 1 1 0x1p-1022%float (l_inv1 (floatS fid fid))))).
Theorem C72_two_states_refuted :
  let s := kf_update (Some (f1 1)) None None kfl2 in
  snd s = None /\ (mget (kf_P (fst s)) 1 1 <? 0)%float = true.
Proof. vm_compute. split; reflexivity. Qed.
Print Assumptions C72_two_states_refuted.

(** Nor does P stay symmetric: a new constant-velocity filter (P, Q and R as constructed, position measured) has
    P[0,1] <> P[1,0] after three cycles of predict and update. *)
Definition kfl3 : kf FO 2 1 1 :=
  set_kf_F ([[1; 1]; [0; 1]]%float : M FO 2 2) (set_kf_H ([[1; 0]]%float : M FO 1 2)
  (@kf_init FO 2 1 1 0x1p-1022%float (l_inv1 (floatS fid fid)))).
Theorem C72_symmetry_refuted :
  let P := kf_P (kf_run (concat (repeat [CPredict None None None None; CUpdate (Some (f1 1)) None None] 3)) kfl3) in
  (mget P 0 1 <? mget P 1 0)%float = true.
Proof. vm_compute. reflexivity. Qed.
Print Assumptions C72_symmetry_refuted.
