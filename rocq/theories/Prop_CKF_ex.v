(** * Cubature filter: numbers, missing measurements, and claims that fail (C27). *)
From Coq Require Import List Arith Bool ZArith QArith.
From Verif Require Import Ops ListOps Model_KF Model_UKF Model_CKF Prop_UKF_ex.
Import ListNotations.
Set Implicit Arguments.
Unset Strict Implicit.

(** A missing measurement changes z, x_post and P_post only; any arithmetic. *)
Theorem C27_missing_measurement : forall (o : nops) (n m : nat) R (c : ck_cfg o n m) (s : ck_st o n m),
  ck_update None R c s =
  (mkCS (c_x s) (c_P s) (c_K s) (c_y s) None (c_S s) (c_SI s) (c_sigmas_f s) (c_sigmas_h s) (c_x_prior s) (c_P_prior s)
     (c_x s) (c_P s) (c_loglik s) (c_lik s) (c_mahal s), None) /\
  (* ... and neither predict nor update reads them *)
  (forall z p q dt, let s1 := mkCS (c_x s) (c_P s) (c_K s) (c_y s) z (c_S s) (c_SI s) (c_sigmas_f s) (c_sigmas_h s)
                              (c_x_prior s) (c_P_prior s) p q (c_loglik s) (c_lik s) (c_mahal s) in
    let t := fst (ck_predict dt c s) in let t1 := fst (ck_predict dt c s1) in
    snd (ck_predict dt c s1) = snd (ck_predict dt c s) /\ c_x t1 = c_x t /\ c_P t1 = c_P t /\ c_sigmas_f t1 = c_sigmas_f t).
Proof.
  intros. split; [reflexivity|]. intros z p q dt s1 t t1; subst s1 t t1. unfold ck_predict; cbn [c_x c_P c_sigmas_f].
  destruct (spherical_radial_sigmas _ _ _); [|repeat split]. destruct (ckf_transform _ _); repeat split.
Qed.
Print Assumptions C27_missing_measurement.

Open Scope Q_scope.
Definition ck1_cfg (q r : Q) : ck_cfg QO 1 1 :=
  mkCC (q11 q) (q11 r) 1 (fun x => x) (fun x _ => x) msub sqrt_tab (@l_inv1 QS).
Definition ck1_st (x P : Q) : ck_st QO 1 1 :=
  mkCS (o := QO) (n := 1) (m := 1) (q11 x) (q11 P) (q11 0) (q11 0) None (q11 0) (q11 0) (@mzeros QO 2 1) (@mzeros QO 2 1)
    (q11 x) (q11 P) (q11 x) (q11 P) None None None.

(** x = 2, P = 1, Q = 3, R = 4, identity functions, z = 10.  Both filters predict P = 4.  The KalmanFilter's
    gain is 4/8 and it moves to 6 with P = 2; the cubature filter's gain is 1/5, it moves to 18/5 with P = 19/5. *)
Theorem C27_update_is_kf_refuted :
  let s := fst (ck_predict None (ck1_cfg 3 4) (ck1_st 2 1)) in
  let s' := fst (ck_update (Some (q11 10)) None (ck1_cfg 3 4) s) in
  let k0 := kf_predict None None None None (k1 2 1 1 1 3 4) in
  let k' := fst (kf_update (Some (q11 10)) None None k0) in
  (c_x s, c_P s, c_x s', c_P s') = (q11 2, q11 4, q11 (18#5), q11 (19#5)) /\
  (kf_x k0, kf_P k0, kf_x k', kf_P k') = (q11 2, q11 4, q11 6, q11 2).
Proof. split; vm_compute; reflexivity. Qed.
Print Assumptions C27_update_is_kf_refuted.

(** With Q = 0 they agree. *)
Example C27_numbers :
  let s := fst (ck_predict None (ck1_cfg 0 4) (ck1_st 2 4)) in
  let s' := fst (ck_update (Some (q11 10)) None (ck1_cfg 0 4) s) in
  (c_x s, c_P s, c_x s', c_P s') = (q11 2, q11 4, q11 6, q11 2).
Proof. vm_compute; reflexivity. Qed.

(** Two measurement components, z one-dimensional: the scalar state becomes a 1 x 2 array. *)
Theorem C27_flat_measurement_refuted :
  let c : ck_cfg QO 1 2 := mkCC (o := QO) (n := 1) (m := 2) (q11 0) [[4; 0]; [0; 4]] 1
      (fun x => match x with [[a]] => [[a; a]] | _ => [] end) (fun x _ => x) msub sqrt_tab (@l_inv2 QS) in
  let s := mkCS (o := QO) (n := 1) (m := 2) (q11 2) (q11 4) [[0; 0]] [[0]; [0]] None [[0; 0]; [0; 0]] [[0; 0]; [0; 0]]
      (@mzeros QO 2 1) (@mzeros QO 2 2) (q11 2) (q11 4) (q11 2) (q11 4) None None None in
  let s1 := fst (ck_predict None c s) in
  @ck_update_1d QO 1 2 [[10; 4]] None c s1 = Ok [[22#3; 10#3]] /\
  c_x (fst (@ck_update QO 1 2 (Some [[10]; [4]]) None c s1)) = [[16#3]].
Proof. split; vm_compute; reflexivity. Qed.
Print Assumptions C27_flat_measurement_refuted.

(** Two measurements after one prediction, no process noise: the second update subtracts the same reduction
    again; P goes 4, 2, 0 and a third one makes it negative. *)
Theorem C27_two_updates_refuted :
  let c := ck1_cfg 0 4 in
  let u s := fst (ck_update (Some (q11 10)) None c s) in
  let s := fst (ck_predict None c (ck1_st 2 4)) in
  (c_P s, c_P (u s), c_P (u (u s)), c_P (u (u (u s)))) = (q11 4, q11 2, q11 0, q11 (-2)).
Proof. vm_compute; reflexivity. Qed.
Print Assumptions C27_two_updates_refuted.
