(** * Ensemble filter: missing measurements, numbers, and claims that fail (C28). *)
From Coq Require Import List Arith Bool ZArith QArith.
From Verif Require Import Ops ListOps Model_KF Model_UKF Model_EnKF Prop_UKF_ex.
Import ListNotations.
Set Implicit Arguments.
Unset Strict Implicit.

(** A missing measurement changes z, x_post and P_post only, whatever the draws; any arithmetic. *)
Theorem C28_missing_measurement : forall (o : nops) (n m N : nat) R er (c : en_cfg o n m) (s : en_st o n m N),
  en_update None R er c s =
  (mkNS (n_x s) (n_P s) (n_sigmas s) (n_K s) None (n_S s) (n_SI s) (n_x_prior s) (n_P_prior s) (n_x s) (n_P s), None).
Proof. reflexivity. Qed.
Print Assumptions C28_missing_measurement.

(** The constructor accepts dim_z > 0, N > 0 and a one-dimensional x, and raises ValueError otherwise.  N = 1 is
    accepted although every covariance divides by N - 1. *)
Theorem C28_init_checks : forall (dim_z N : Z) (d : nat),
  (en_check dim_z N d = None <-> (0 < dim_z)%Z /\ (0 < N)%Z /\ d = 1%nat) /\
  (en_check dim_z N d <> None -> en_check dim_z N d = Some ValueError).
Proof.
  intros; unfold en_check.
  destruct (Z.leb_spec dim_z 0), (Z.leb_spec N 0), (Nat.eqb_spec d 1); simpl; split; intuition (try congruence; try discriminate; try Lia.lia).
Qed.
Print Assumptions C28_init_checks.

Open Scope Q_scope.
Definition en1_cfg (q r : Q) : en_cfg QO 1 1 := mkNC (q11 q) (q11 r) 1 (fun x => x) (fun x _ => x) (@l_inv1 QS).
Definition en1_st (x P a b : Q) : en_st QO 1 1 2 :=
  mkNS (o := QO) (n := 1) (m := 1) (N := 2) (q11 x) (q11 P) [[a]; [b]] (q11 0) None (q11 0) (q11 0) (q11 x) (q11 P) (q11 x) (q11 P).

(** After an update P need not be the sample covariance of the ensemble: with the draws 2 and 2 the
    reported P is 2/3 and the ensemble's variance is 2/9. *)
Theorem C28_update_P_is_sample_covariance_refuted :
  let s := en_predict (o := QO) [[0]; [0]] (en1_cfg 0 1) (en1_st 0 2 1 (-1)) in
  let s' := fst (en_update (o := QO) (Some (q11 3)) None [[2]; [2]] (en1_cfg 0 1) s) in
  (n_x s, n_P s, n_x s', n_P s', n_sigmas s') = (q11 0, q11 2, q11 (10#3), q11 (2#3), [[11#3]; [3]]) /\
  (* the members 11/3 and 3 have sample variance 2/9 *)
  (11#3) - (10#3) == 1#3 /\ ((1#3) * (1#3) + (1#3) * (1#3)) / (2 - 1) == 2#9.
Proof. repeat split; vm_compute; reflexivity. Qed.
Print Assumptions C28_update_P_is_sample_covariance_refuted.

(** ... and a second update without a prediction can make the variance negative. *)
Theorem C28_second_update_psd_refuted :
  let s := en_predict (o := QO) [[0]; [0]] (en1_cfg 0 1) (en1_st 0 2 1 (-1)) in
  let s1 := fst (en_update (o := QO) (Some (q11 3)) None [[4]; [-4]] (en1_cfg 0 1) s) in
  let s2 := fst (en_update (o := QO) (Some (q11 3)) None [[0]; [0]] (en1_cfg 0 1) s1) in
  n_P s1 = q11 (2#3) /\ n_sigmas s1 = [[5]; [-1]] /\ n_P s2 = q11 (-934#57).
Proof. repeat split; vm_compute; reflexivity. Qed.
Print Assumptions C28_second_update_psd_refuted.

(** Before the first predict x is the mean given to the constructor, not the ensemble's. *)
Theorem C28_initial_x_is_mean_refuted :
  n_x (@en_init QO 1 1 2 [[3]; [5]] (q11 0) (q11 1)) = q11 0 /\
  row_mean (o := QO) (n_sigmas (@en_init QO 1 1 2 [[3]; [5]] (q11 0) (q11 1))) = q11 4.
Proof. split; vm_compute; reflexivity. Qed.
Print Assumptions C28_initial_x_is_mean_refuted.

(** Numbers: a prediction, then an update with draws of mean 0. *)
Example C28_numbers :
  let s := en_predict (o := QO) [[1]; [-1]] (en1_cfg 1 8) (en1_st 0 2 1 (-1)) in
  let s' := fst (en_update (o := QO) (Some (q11 4)) None [[1]; [-1]] (en1_cfg 1 8) s) in
  (n_x s, n_P s, n_S s', n_K s', n_x s', n_P s', n_sigmas s') = (q11 0, q11 8, q11 16, q11 (1#2), q11 2, q11 4, [[7#2]; [1#2]]).
Proof. vm_compute; reflexivity. Qed.
