(** * C07, C20, C21, C22: nonlinear EKF updates, failures, setters. *)
From Coq Require Import List Arith Bool ZArith Lia QArith.
From Verif Require Import Ops ListOps Model_KF Model_EKF Model_Info Model_Sqrt Spec_Lin Proof_KF.
Import ListNotations.
Set Implicit Arguments.
Unset Strict Implicit.
Local Open Scope nat_scope.
Local Open Scope np_scope.

Definition q1 (a : Q) : M QO 1 1 := [[a]].

(** ** C22.  One EKF update with any measurement function, Jacobian, residual function and noise is the KalmanFilter
    update with the Jacobian at the current estimate as H and a measurement [zp] whose linear residual is the
    nonlinear one; the exceptions agree too. *)
Theorem C22_update_is_linearised_kf : forall (o : nops) (n m l : nat) (c : ek_cfg o n m l) z zp hjac hx R residual
    (k : kf o n m l) (s : ek_st o n m),
  kf_ek k s -> kf_inv k = ec_inv c -> kf_R k = ec_R c ->
  let H := hjac (e_x s) in
  zp - H @ e_x s = residual z (hx (e_x s)) ->
  let a := ek_update (Some z) hjac hx R residual c s in
  let b := kf_update (Some zp) R (Some H) k in
  kf_ek (fst b) (fst a) /\ snd a = snd b /\
  (snd a = None -> e_y (fst a) = kf_y (fst b) /\ e_K (fst a) = Some (kf_K (fst b)) /\ e_z (fst a) = Some z /\
     e_loglik (fst a) = None /\ e_lik (fst a) = None /\ e_mahal (fst a) = None) /\
  (* the missing measurement *)
  kf_ek (fst (kf_update None R (Some H) k)) (fst (ek_update None hjac hx R residual c s)).
Proof.
  intros o n m l c z zp hjac hx R residual k s (h1&h2&h3&h4&h5&h6&h7&h8) hi hR H E.
  unfold kf_update, ek_update, ek_correct, ek_skip, skip_update, clear_caches, kf_ek. fold H.
  destruct k, s, c. cbn in *. subst. rewrite E.
  destruct (ec_inv _) as [SI|]; cbn; repeat split; discriminate.
Qed.
Print Assumptions C22_update_is_linearised_kf.

(** h(x) = x^2 at x = 2 (after the prediction of [C22_predict_update_refuted]'s filter): the pseudo measurement for
    z = 5 is 9 = 4 * 2 + (5 - 4), with R = 3 for this call. *)
Example C22_linearised_example :
  let c : ek_cfg QO 1 1 1 := mkEC (q1 1) None (q1 2) (q1 1) (l_inv1 QS) in
  let s : ek_st QO 1 1 := mkES (q1 2) (q1 5) None None (q1 0) (q1 0) (q1 0) (q1 2) (q1 5) (q1 1) (q1 1) None None None in
  let hjac := fun x : M QO 1 1 => q1 (2 * mget x 0 0) in
  let hx := fun x : M QO 1 1 => q1 (mget x 0 0 * mget x 0 0) in
  q1 9 - hjac (e_x s) @ e_x s = (q1 5 - hx (e_x s))%np /\
  e_x (fst (ek_update (Some (q1 5)) hjac hx (Some (@Scal QO 1 3%Q)) msub c s)) = q1 (186#83).
Proof. split; vm_compute; reflexivity. Qed.

(** ** C07 for the EKF and the fading memory filter: a raising update changes S (and y in the latter) and nothing
    else, the likelihood caches included. *)
Theorem C07_ekf_update_atomic : forall (o : nops) (n m l : nat) (c : ek_cfg o n m l) z hjac hx R residual H (s : ek_st o n m) e,
  (snd (ek_update z hjac hx R residual c s) = Some e ->
   e = LinAlgError /\
   let s' := fst (ek_update z hjac hx R residual c s) in
   exists S, s' = mkES (e_x s) (e_P s) (e_z s) (e_K s) (e_y s) S (e_SI s) (e_x_prior s) (e_P_prior s)
               (e_x_post s) (e_P_post s) (e_loglik s) (e_lik s) (e_mahal s) /\ ec_inv c S = None) /\
  (snd (fk_update z R H c s) = Some e ->
   e = LinAlgError /\
   let s' := fst (fk_update z R H c s) in
   exists y S, s' = mkES (e_x s) (e_P s) (e_z s) (e_K s) y S (e_SI s) (e_x_prior s) (e_P_prior s)
               (e_x_post s) (e_P_post s) (e_loglik s) (e_lik s) (e_mahal s) /\ ec_inv c S = None).
Proof.
  intros o n m l c z hjac hx R residual H s e. split; destruct z as [z|]; cbn; try discriminate.
  - destruct (ec_inv c _) eqn:E; cbn; [discriminate|]. intros [= <-]. split; [reflexivity|]. eexists; split; [reflexivity|exact E].
  - destruct (ec_inv c _) eqn:E; cbn; [discriminate|]. intros [= <-]. split; [reflexivity|]. do 2 eexists; split; [reflexivity|exact E].
Qed.
Print Assumptions C07_ekf_update_atomic.

(** The information filter, by contrast, is not atomic: its log-likelihood is computed last, and when that raises the
    estimate and the measurement have been replaced while x_post and P_inv_post have not. *)
Theorem C07_information_filter_refuted : forall (o : nops) (n m l : nat) (c : if_cfg o n m l) z Rinv (s : if_st o n m) SI e,
  i_noinfo s = false -> ic_ll c = true ->
  let H := ic_H c in let Ri := sm_or (ic_Rinv c) Rinv in
  let S := i_Pinv s + (H^T @ Ri) @ H in let y := z - H @ i_x s in
  ic_inv c S = Some SI -> ic_lpdf c y S = Err e ->
  let s' := fst (if_update (Some z) Rinv c s) in
  snd (if_update (Some z) Rinv c s) = Some e /\
  i_x s' = i_x s + ((SI @ H^T) @ Ri) @ y /\ i_Pinv s' = S /\ i_z s' = Some z /\
  i_x_post s' = i_x_post s /\ i_Pinv_post s' = i_Pinv_post s /\ i_ll s' = i_ll s /\ i_lik s' = i_lik s.
Proof.
  intros o n m l c z Rinv s SI e hn hl H Ri S y hS hy. unfold if_update. cbv zeta. rewrite hn, hl.
  fold H Ri. fold S. rewrite hS. fold y. rewrite hy. cbn. repeat split.
Qed.
Print Assumptions C07_information_filter_refuted.

(** A density routine that, like scipy's, rejects a vector whose length is not that of the covariance:
    two states, one measurement. *)
Example C07_information_example :
  let c : if_cfg QO 2 1 1 := @mkIC QO 2 1 1 [[1;0];[0;1]]%Q None None None [[1;0]]%Q [[1]]%Q
      (l_inv2 QS) true (fun y S => if (length y =? length S)%nat then Ok 0%Q else Err ValueError) (1#1024)%Q in
  let s : if_st QO 2 1 := @mkIS QO 2 1 [[1];[2]]%Q [[1;0];[0;1]]%Q None None [[0]]%Q None false 0%Q 0%Q [[0];[0]]%Q [[1;0];[0;1]]%Q [[0];[0]]%Q [[1;0];[0;1]]%Q in
  snd (if_update (Some (q1 3)) None c s) = Some ValueError /\
  i_x (fst (if_update (Some (q1 3)) None c s)) = [[2];[2]]%Q /\
  i_x_post (fst (if_update (Some (q1 3)) None c s)) = [[0];[0]]%Q.
Proof. repeat split; vm_compute; reflexivity. Qed.

(** ** C20: the other members. *)
(** Setting F: the getter returns the new F even when the inverse raised, and predict then uses the new F with the old
    inverse. *)
Theorem C20_F_setter : forall (o : nops) (n m l : nat) (F : M o n n) (c : if_cfg o n m l),
  let c' := fst (if_set_F F c) in
  ic_F c' = Some F /\
  (snd (if_set_F F c) = None <-> ic_inv c F <> None) /\
  (snd (if_set_F F c) = None -> ic_Finv c' = ic_inv c F) /\
  (snd (if_set_F F c) <> None -> snd (if_set_F F c) = Some LinAlgError /\ ic_Finv c' = ic_Finv c) /\
  ic_Q c' = ic_Q c /\ ic_B c' = ic_B c /\ ic_H c' = ic_H c /\ ic_Rinv c' = ic_Rinv c.
Proof.
  intros o n m l F c c'. unfold c', if_set_F. destruct (ic_inv c F) eqn:E; cbn; repeat split; try congruence; auto.
Qed.
Print Assumptions C20_F_setter.

(** So after a failed assignment of F the prediction is made with two unrelated matrices: F = 0 is refused, but x
    becomes 0 while P_inv is that of F = 2. *)
Theorem C20_failed_F_used_refuted :
  let c0 : if_cfg QO 1 1 1 := mkIC (q1 1) None (Some (q1 2)) (Some (q1 (1#2))) (q1 1) (q1 1) (l_inv1 QS) false (fun _ _ => Ok 0%Q) (1#1024)%Q in
  let s : if_st QO 1 1 := mkIS (q1 3) (q1 1) None None (q1 0) None false 0%Q 0%Q (q1 0) (q1 0) (q1 0) (q1 0) in
  let c := fst (if_set_F (q1 0) c0) in
  snd (if_set_F (q1 0) c0) = Some LinAlgError /\ snd (if_predict None c s) = None /\
  i_x (fst (if_predict None c s)) = q1 0 /\ i_Pinv (fst (if_predict None c s)) = q1 (1#5).
Proof. repeat split; vm_compute; reflexivity. Qed.
Print Assumptions C20_failed_F_used_refuted.

(** The likelihood stored by an update: exp of the log-likelihood, but never 0. *)
Theorem C20_likelihood_floor : forall (o : nops) (n m l : nat) (c : if_cfg o n m l) z Rinv (s : if_st o n m),
  let s' := fst (if_update (Some z) Rinv c s) in
  snd (if_update (Some z) Rinv c s) = None ->
  (i_noinfo s = true -> i_lik s' = ic_fmin c /\ i_ll s' = slog o (ic_fmin c)) /\
  (i_noinfo s = false -> ic_ll c = true ->
    (seqb o (sexp o (i_ll s')) (s0 o) = false -> i_lik s' = sexp o (i_ll s')) /\
    (seqb o (ic_fmin c) (s0 o) = false -> seqb o (i_lik s') (s0 o) = false)) /\
  (i_noinfo s = false -> ic_ll c = false -> i_lik s' = i_lik s /\ i_ll s' = i_ll s).
Proof.
  intros o n m l c z Rinv s s' ok. unfold s' in *. clear s'. revert ok. unfold if_update. cbv zeta.
  destruct (i_noinfo s) eqn:En.
  - intros _. cbn. repeat split; discriminate.
  - destruct (ic_inv c _) as [SI|]; [|discriminate].
    destruct (ic_ll c) eqn:El; cbn [rmap].
    + destruct (ic_lpdf c _ _) as [v|e]; cbn; [|discriminate]. intros _.
      repeat split; try discriminate; destruct (seqb o (sexp o v) (s0 o)) eqn:E; cbn; auto; discriminate.
    + cbn. intros _. repeat split; discriminate.
Qed.
Print Assumptions C20_likelihood_floor.

(** ** C21: assigning P, Q or R of the square root filter and reading it back, whatever factorisation [chol] finds.
    A refused assignment changes nothing the filter computes with. *)
Theorem C21_setters : forall (o : nops) (n m l : nat) (chol : M o n n -> option (M o n n)) (cholm : M o m m -> option (M o m m))
    (A : M o n n) (R : M o m m) (c : sq_cfg o n m l) (s : sq_st o n m),
  (forall L, chol A = Some L -> L @ L^T = A) -> (forall L, cholm R = Some L -> L @ L^T = R) ->
  (snd (sq_set_P chol A s) = None -> sq_P (fst (sq_set_P chol A s)) = A) /\
  (snd (sq_set_Q chol A c) = None -> sq_Q (fst (sq_set_Q chol A c)) = A /\ sq_R (fst (sq_set_Q chol A c)) = sq_R c) /\
  (snd (sq_set_R cholm R c) = None -> sq_R (fst (sq_set_R cholm R c)) = R /\ sq_Q (fst (sq_set_R cholm R c)) = sq_Q c) /\
  (snd (sq_set_P chol A s) <> None -> chol A = None /\ fst (sq_set_P chol A s) = s) /\
  (snd (sq_set_Q chol A c) <> None -> chol A = None /\ fst (sq_set_Q chol A c) = c) /\
  (snd (sq_set_R cholm R c) <> None -> cholm R = None /\ fst (sq_set_R cholm R c) = c) /\
  (* assigning P does not touch x, the prior and the posterior *)
  (let s' := fst (sq_set_P chol A s) in
   q_x s' = q_x s /\ sq_P_prior s' = sq_P_prior s /\ q_x_prior s' = q_x_prior s /\ q_x_post s' = q_x_post s /\
   q_P12_post s' = q_P12_post s).
Proof.
  intros o n m l chol cholm A R c s hA hR.
  unfold sq_set_P, sq_set_Q, sq_set_R, sq_P, sq_Q, sq_R, sq_P_prior.
  destruct (chol A) as [L|] eqn:E1; destruct (cholm R) as [L'|] eqn:E2; cbn; repeat split; try discriminate; try congruence; auto.
Qed.
Print Assumptions C21_setters.

(** update(None): the estimate is copied to the posterior and nothing else changes. *)
Theorem C21_missing_measurement : forall (o : nops) (n m l : nat) qr pinv R2 (c : sq_cfg o n m l) (s : sq_st o n m),
  let s' := sq_update qr pinv None R2 c s in
  q_x s' = q_x s /\ sq_P s' = sq_P s /\ q_x_post s' = q_x s /\ q_P12_post s' = q_P12 s /\ q_z s' = None /\
  q_x_prior s' = q_x_prior s /\ sq_P_prior s' = sq_P_prior s /\ q_K s' = q_K s /\ sq_S s' = sq_S s /\
  sq_SI s' = sq_SI s /\ q_y s' = q_y s.
Proof. intros. cbn. repeat split. Qed.
Print Assumptions C21_missing_measurement.

Example C21_setters_example :
  let chol : M QO 1 1 -> option (M QO 1 1) := fun A => if Qeq_bool (mget A 0 0) 9 then Some (q1 3) else None in
  (forall L, chol (q1 9) = Some L -> L @ L^T = q1 9) /\
  sq_P (fst (sq_set_P chol (q1 9) (sq_init QO 1 1))) = q1 9 /\
  snd (sq_set_P chol (q1 (-1)) (sq_init QO 1 1)) = Some LinAlgError.
Proof. repeat split; try (vm_compute; reflexivity). intros L [= <-]. vm_compute. reflexivity. Qed.
