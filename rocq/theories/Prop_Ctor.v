(** * Constructors: C51. *)
From Coq Require Import ZArith Lia Bool QArith.
From Verif Require Import Ops ListOps Model_KF Model_EKF Model_Info Model_Sqrt Spec_Lin.
Local Open Scope Z_scope.

(** The documented contract: dim_x >= 1, dim_z >= 1, dim_u >= 0. *)
Definition dims_ok (dim_x dim_z dim_u : Z) : Prop := 1 <= dim_x /\ 1 <= dim_z /\ 0 <= dim_u.

Theorem C51_dimension_checks : forall dim_x dim_z dim_u : Z,
  (kf_check_dims dim_x dim_z dim_u = None <-> dims_ok dim_x dim_z dim_u) /\
  (kf_check_dims dim_x dim_z dim_u = Some ValueError <-> ~ dims_ok dim_x dim_z dim_u) /\
  (if_check_dims dim_x dim_z dim_u = None <-> dims_ok dim_x dim_z dim_u) /\
  (if_check_dims dim_x dim_z dim_u = Some ValueError <-> ~ dims_ok dim_x dim_z dim_u).
Proof.
  intros x z u; unfold kf_check_dims, if_check_dims, dims_ok.
  destruct (Z.ltb_spec x 1), (Z.ltb_spec z 1), (Z.ltb_spec u 0);
    repeat split; intros; try discriminate; try reflexivity; try lia.
Qed.
Print Assumptions C51_dimension_checks.

(** FadingKalmanFilter additionally requires alpha >= 1; it asserts, so a failing check is an
    AssertionError (and no check at all under python -O). *)
Theorem C51_fading_checks : forall (o : sops) (alpha : sc o) (dim_x dim_z dim_u : Z),
  (fk_check alpha dim_x dim_z dim_u = None <-> sleb o (s1 o) alpha = true /\ dims_ok dim_x dim_z dim_u) /\
  (fk_check alpha dim_x dim_z dim_u = None \/ fk_check alpha dim_x dim_z dim_u = Some AssertionError).
Proof.
  intros o a x z u; unfold fk_check, dims_ok.
  destruct (sleb o (s1 o) a), (Z.ltb_spec 0 x), (Z.ltb_spec 0 z), (Z.leb_spec 0 u);
    simpl; (split; [split; intros E|try (left; reflexivity); right; reflexivity]);
    try discriminate E; try reflexivity; try (split; [reflexivity|lia]);
    destruct E as [E1 E2]; try discriminate E1; exfalso; lia.
Qed.
Print Assumptions C51_fading_checks.

(** SquareRootKalmanFilter tests dim_z twice and never dim_x: dim_x = 0 and dim_x = -3 pass. *)
Theorem C51_square_root_refuted :
  (forall dim_x dim_z dim_u, sq_check_dims dim_x dim_z dim_u = None <-> 1 <= dim_z /\ 0 <= dim_u) /\
  sq_check_dims (-3) 2 0 = None /\ ~ dims_ok (-3) 2 0.
Proof.
  split; [|split; [reflexivity|unfold dims_ok; lia]].
  intros x z u; unfold sq_check_dims.
  destruct (Z.ltb_spec z 1), (Z.ltb_spec u 0); split; intros; try discriminate; try reflexivity; try lia.
Qed.
Print Assumptions C51_square_root_refuted.

(** A new KalmanFilter, ExtendedKalmanFilter / FadingKalmanFilter stand for the same state, and
    the first reads of the likelihoods give the constants set by the constructor, without
    evaluating any density; the square root filter's P is I I'. *)
Theorem C51_fresh_objects_agree : forall (o : nops) (n m l : nat) (fmin : sc o) inv,
  let k := kf_init n m l fmin inv in
  let e : ek_st o n m := ek_init n m fmin in
  kf_ek k e /\ kf_x k = mzeros n 1 /\ kf_P k = meye n /\
  (forall lpdf, fst (kf_log_likelihood lpdf k) = slog o fmin /\ fst (kf_likelihood lpdf fmin k) = fmin) /\
  (forall lpdf, fst (ek_log_likelihood lpdf e) = slog o fmin /\ fst (ek_likelihood lpdf fmin e) = fmin) /\
  q_x (sq_init o n m) = kf_x k /\ sq_P (sq_init o n m) = mdot (kf_P k) (mtr (kf_P k)) /\
  i_x (if_init n m fmin) = kf_x k /\ i_Pinv (if_init n m fmin) = kf_P k.
Proof. intros; repeat split. Qed.
Print Assumptions C51_fresh_objects_agree.

Example C51_example : kf_check_dims 0 1 0 = Some ValueError /\ if_check_dims 1 1 (-1) = Some ValueError /\
  kf_check_dims 2 1 0 = None /\ @fk_check QS (1#2)%Q 1 1 0 = Some AssertionError /\ @fk_check QS 1%Q 1 1 0 = None.
Proof. repeat split. Qed.
