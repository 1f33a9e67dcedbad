(** * Unscented filter: what a missing measurement changes, and claims that fail (C25, C26, C57). *)
From Coq Require Import List Arith Bool ZArith Lia QArith.
From Verif Require Import Ops ListOps Model_KF Model_UKF Spec_Lin Spec_UKF_run.
Import ListNotations.
Set Implicit Arguments.
Unset Strict Implicit.
Local Open Scope nat_scope.
Local Open Scope np_scope.

(** Two states equal except for z and the stored posterior. *)
Definition same_but_post o n m k (s t : uk_st o n m k) : Prop :=
  u_x s = u_x t /\ u_P s = u_P t /\ u_sigmas_f s = u_sigmas_f t /\ u_sigmas_h s = u_sigmas_h t /\ u_K s = u_K t /\
  u_y s = u_y t /\ u_S s = u_S t /\ u_SI s = u_SI t /\ u_x_prior s = u_x_prior t /\ u_P_prior s = u_P_prior t /\
  u_loglik s = u_loglik t /\ u_lik s = u_lik t /\ u_mahal s = u_mahal t.

(** A missing measurement changes x_post, P_post and z only, and no later call of any kind, with any functions,
    can tell that it was made: same exceptions, same estimates.  Any arithmetic, any functions. *)
Theorem C26_missing_measurement : forall (o : nops) (n m k : nat) (c : uk_cfg o n m k) R hx (s : uk_st o n m k),
  snd (uk_update None R hx c s) = None /\
  u_x_post (fst (uk_update None R hx c s)) = u_x s /\ u_P_post (fst (uk_update None R hx c s)) = u_P s /\
  forall calls : list (uk_cfg o n m k * uk_call o n m),
    let run := fold_left (fun st (a : uk_cfg o n m k * uk_call o n m) =>
                 let r := uk_step (fst a) (snd a) (fst st) in (fst r, snd st ++ [snd r])) calls in
    same_but_post (fst (run (fst (uk_update None R hx c s), []))) (fst (run (s, []))) /\
    snd (run (fst (uk_update None R hx c s), [])) = snd (run (s, [])).
Proof.
  intros o n m k c R hx s. split; [reflexivity|]. split; [reflexivity|]. split; [reflexivity|].
  intros calls run.
  assert (G : forall calls (s t : uk_st o n m k) es, same_but_post s t ->
    let run := fold_left (fun st (a : uk_cfg o n m k * uk_call o n m) =>
                 let r := uk_step (fst a) (snd a) (fst st) in (fst r, snd st ++ [snd r])) calls in
    same_but_post (fst (run (s, es))) (fst (run (t, es))) /\ snd (run (s, es)) = snd (run (t, es))).
  { clear. induction calls as [|[c a] calls IH]; intros s t es E; [split; [exact E|reflexivity]|].
    cbn [fold_left fst snd].
    assert (St : same_but_post (fst (uk_step c a s)) (fst (uk_step c a t)) /\ snd (uk_step c a s) = snd (uk_step c a t)).
    { destruct E as (e1&e2&e3&e4&e5&e6&e7&e8&e9&e10&e11&e12&e13).
      destruct a as [dt fx|z R hx]; cbn [uk_step].
      - unfold uk_predict, uk_process_sigmas. rewrite e1, e2, e3.
        destruct (pt_sigmas _ _ _); [|split; [repeat split; auto|reflexivity]].
        destruct (unscented_transform _ _ _ _ _ _). destruct (pt_sigmas _ _ _); (split; [repeat split; auto|reflexivity]).
      - unfold uk_update. destruct z as [z|]; [|split; [repeat split; auto|reflexivity]].
        rewrite e1, e2, e3. destruct (unscented_transform _ _ _ _ _ _). destruct (uc_inv _ _); (split; [repeat split; auto|reflexivity]). }
    destruct St as [St1 St2]. rewrite St2. apply IH. exact St1. }
  apply G. unfold same_but_post. repeat split.
Qed.
Print Assumptions C26_missing_measurement.

(** A negative weight on the centre point (Julier, n = 1, kappa = -1/2) and f(x) = x^2: the points 0 and
    +-U with U^2 = 1/2 are mapped to 0, 1/2, 1/2; the covariance returned is -1/2. *)
Open Scope Q_scope.
Definition q11 (a : Q) : M QO 1 1 := [[a]].
Theorem C25_psd_refuted :
  let W := weights (o := QO) 3 ((-1#2) / (1#2)) ((1#2) / (1#2)) in
  snd (unscented_transform (o := QO) (k := 3) (n := 1) [[0]; [1#2]; [1#2]] W W None None None) = [[-1#2]].
Proof. vm_compute. reflexivity. Qed.
Print Assumptions C25_psd_refuted.

(** One-dimensional filters for the counterexamples.  The square root table covers the values met. *)
Definition sqrt_tab (A : M QO 1 1) : option (M QO 1 1) :=
  match A with
  | [[a]] => if Qeq_bool a 4 then Some [[2]] else if Qeq_bool a 16 then Some [[4]] else if Qeq_bool a 1 then Some [[1]] else None
  | _ => None
  end.
Definition u1_pts : points QO 1 3 := @julier_points QO 1 0 sqrt_tab msub.
Definition u1_cfg (f h q r : Q) : uk_cfg QO 1 1 3 :=
  uk_config (q11 q) (q11 r) 1 (fun x => @mscale QO 1 1 h x) (fun x dt => @mscale QO 1 1 (Qred (f * dt)) x) u1_pts None None None None None (@l_inv1 QS).
Definition u1_st (x P : Q) : uk_st QO 1 1 3 :=
  mkUS (o := QO) (n := 1) (m := 1) (k := 3) (q11 x) (q11 P) (@mzeros QO 3 1) (@mzeros QO 3 1) (q11 0) (q11 0) None (q11 0) (q11 0)
    (q11 x) (q11 P) (q11 x) (q11 P) None None None.
Definition k1 (x P f h q r : Q) : kf QO 1 1 1 :=
  let k := kf_init (o := QO) 1 1 1 1 (@l_inv1 QS) in
  set_kf_x (q11 x) (set_kf_P (q11 P) (set_kf_F (q11 f) (set_kf_H (q11 h) (set_kf_Q (q11 q) (set_kf_R (q11 r) k))))).

(** Checked case: predict and update give the Kalman values. *)
Example C26_numbers :
  let s := fst (uk_predict None None (u1_cfg 1 1 3 4) (u1_st 2 1)) in
  let s' := fst (uk_update (Some (q11 10)) None None (u1_cfg 1 1 3 4) s) in
  (u_x s, u_P s, u_x s', u_P s') = (q11 2, q11 4, q11 6, q11 2).
Proof. vm_compute. reflexivity. Qed.

(** Two measurements after one prediction: the KalmanFilter's P goes 4, 2, 4/3; the unscented filter's second
    update still uses the sigma points of the prediction, its P goes 4, 2, 0. *)
Theorem C26_two_updates_refuted :
  let c := u1_cfg 1 1 3 4 in
  let s0 := fst (uk_predict None None c (u1_st 2 1)) in
  let s1 := fst (uk_update (Some (q11 10)) None None c s0) in
  let s2 := fst (uk_update (Some (q11 10)) None None c s1) in
  let k0 := kf_predict None None None None (k1 2 1 1 1 3 4) in
  let k' := fst (kf_update (Some (q11 10)) None None k0) in
  let k2 := fst (kf_update (Some (q11 10)) None None k') in
  (u_P s0, u_P s1, u_P s2) = (q11 4, q11 2, q11 0) /\ (kf_P k0, kf_P k', kf_P k2) = (q11 4, q11 2, q11 (4#3)).
Proof. split; vm_compute; reflexivity. Qed.
Print Assumptions C26_two_updates_refuted.

(** A measurement before any prediction, on a new filter (sigmas_f is all zeros): ignores P entirely,
    the gain is 0; the KalmanFilter moves. *)
Theorem C26_update_first_refuted :
  let s1 := fst (uk_update (Some (q11 10)) None None (u1_cfg 1 1 3 4) (u1_st 0 4)) in
  let k' := fst (kf_update (Some (q11 10)) None None (k1 0 4 1 1 3 4)) in
  u_x s1 = q11 0 /\ kf_x k' = q11 5.
Proof. split; vm_compute; reflexivity. Qed.
Print Assumptions C26_update_first_refuted.

(** ** C57: rts_smoother with a time step per epoch.  batch_filter uses dts[k+1] to go from epoch k to k+1,
    rts_smoother dts[k].  With measurements that do not depend on the state (hx = 0) there is nothing to
    smooth, yet the first estimate is moved from 1 to 2 *)
Definition u2_cfg := u1_cfg 1 0 0 4.
Theorem C57_time_steps_refuted :
  let b := snd (uk_batch_filter [Some (q11 0); Some (q11 0)] None (Some [1; 2]) u2_cfg (u1_st 1 1)) in
  b = Ok [(q11 1, q11 1); (q11 2, q11 4)] /\
  rmap (map (fun t => fst (fst t))) (@uk_rts_smoother QO 1 1 3 (@l_inv1 QS) [q11 1; q11 2] [q11 1; q11 4] None (Some [1; 2]) u2_cfg) = Ok [q11 2; q11 2] /\
  (* the list shifted by one gives the estimates back *)
  rmap (map (fun t => fst (fst t))) (@uk_rts_smoother QO 1 1 3 (@l_inv1 QS) [q11 1; q11 2] [q11 1; q11 4] None (Some [2; 2]) u2_cfg) = Ok [q11 1; q11 2].
Proof. repeat split; vm_compute; reflexivity. Qed.
Print Assumptions C57_time_steps_refuted.

(** The Qs argument has no effect: two different lists, same answer. *)
Theorem C57_Qs_ignored_refuted : forall (o : nops) (n m k : nat) inv Xs Ps Qs Qs' dts (c : uk_cfg o n m k),
  uk_rts_smoother inv Xs Ps Qs dts c = uk_rts_smoother inv Xs Ps Qs' dts c.
Proof. reflexivity. Qed.
Print Assumptions C57_Qs_ignored_refuted.
