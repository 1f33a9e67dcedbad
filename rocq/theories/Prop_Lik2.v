(** * C52 for the extended, fading memory, unscented and cubature filters. *)
From Coq Require Import List Arith Bool ZArith QArith.
From Verif Require Import Ops ListOps Model_KF Model_EKF Model_UKF Model_CKF.
Import ListNotations.
Set Implicit Arguments.
Unset Strict Implicit.
Local Open Scope nat_scope.
Local Open Scope np_scope.

Section ek.
Variable o : nops.
Variables n m l : nat.
Variable lpdf : M o m 1 -> M o m m -> sc o.
Variable fmin : sc o.
Notation st := (ek_st o n m).
(** The calls that leave the last measurement alone: predictions (raising or not), update(None), and reading the
    properties, in any number and order, with any configuration. *)
Inductive ek_quiet : st -> st -> Prop :=
| qek_stop s : ek_quiet s s
| qek_predict u (c : ek_cfg o n m l) s s' : ek_quiet (ek_predict u c s) s' -> ek_quiet s s'
| qek_fpredict u a (c : ek_cfg o n m l) s s' : ek_quiet (fk_predict u a c s) s' -> ek_quiet s s'
| qek_none hjac hx R residual (c : ek_cfg o n m l) s s' : ek_quiet (fst (ek_update None hjac hx R residual c s)) s' -> ek_quiet s s'
| qek_fnone R H (c : ek_cfg o n m l) s s' : ek_quiet (fst (fk_update None R H c s)) s' -> ek_quiet s s'
| qek_ll s s' : ek_quiet (snd (ek_log_likelihood lpdf s)) s' -> ek_quiet s s'
| qek_lk s s' : ek_quiet (snd (ek_likelihood lpdf fmin s)) s' -> ek_quiet s s'
| qek_ma s s' : ek_quiet (snd (ek_mahalanobis s)) s' -> ek_quiet s s'.

Definition ek_coh (y : M o m 1) (S SI : M o m m) (s : st) : Prop :=
  e_y s = y /\ e_S s = S /\ e_SI s = SI /\
  (forall v, e_loglik s = Some v -> v = lpdf y S) /\
  (forall v, e_lik s = Some v -> v = if seqb o (sexp o (lpdf y S)) (s0 o) then fmin else sexp o (lpdf y S)) /\
  (forall v, e_mahal s = Some v -> v = ssqrt o (mget ((y^T @ SI) @ y) 0 0)).

Lemma ek_quiet_coh y S SI s s' : ek_quiet s s' -> ek_coh y S SI s -> ek_coh y S SI s'.
Proof.
  induction 1 as [s|u c s s' _ IH|u a c s s' _ IH|hjac hx R residual c s s' _ IH|R H c s s' _ IH|s s' _ IH|s s' _ IH|s s' _ IH]; intros C; [exact C|apply IH; exact C|apply IH; exact C|apply IH; exact C|apply IH; exact C|..];
    apply IH; clear IH; destruct C as (h1 & h2 & h3 & h4 & h5 & h6).
  - unfold ek_log_likelihood. destruct (e_loglik s) eqn:E; cbn; repeat split; cbn; auto; try congruence.
    all: intros v ev; first [apply h4; congruence|apply h5; congruence|apply h6; congruence|injection ev as <-; congruence].
  - unfold ek_likelihood. destruct (e_lik s) eqn:E; [cbn; repeat split; auto; intros v ev; first [apply h4; congruence|apply h5; congruence|apply h6; congruence]|].
    unfold ek_log_likelihood. destruct (e_loglik s) eqn:E1; cbn; repeat split; cbn; auto; try congruence.
    all: intros v ev; first [apply h4; congruence|apply h5; congruence|apply h6; congruence|injection ev as <-; rewrite ?h1, ?h2, ?(h4 _ eq_refl); reflexivity].
  - unfold ek_mahalanobis. destruct (e_mahal s) eqn:E; cbn; repeat split; cbn; auto; try congruence.
    all: intros v ev; first [apply h4; congruence|apply h5; congruence|apply h6; congruence|injection ev as <-; congruence].
Qed.
Lemma ek_reads y S SI s : ek_coh y S SI s ->
  fst (ek_log_likelihood lpdf s) = lpdf y S /\
  fst (ek_likelihood lpdf fmin s) = (if seqb o (sexp o (lpdf y S)) (s0 o) then fmin else sexp o (lpdf y S)) /\
  fst (ek_mahalanobis s) = ssqrt o (mget ((y^T @ SI) @ y) 0 0).
Proof.
  intros (h1 & h2 & h3 & h4 & h5 & h6). unfold ek_likelihood, ek_log_likelihood, ek_mahalanobis.
  destruct (e_loglik s) eqn:E1; destruct (e_lik s) eqn:E2; destruct (e_mahal s) eqn:E3; cbn;
    rewrite ?h1, ?h2, ?h3, ?(h4 _ eq_refl), ?(h5 _ eq_refl), ?(h6 _ eq_refl); auto.
Qed.
End ek.

Section uk.
Variable o : nops.
Variables n m k : nat.
Variable lpdf : M o 1 m -> M o m m -> sc o.
Variable fmin : sc o.
Notation st := (uk_st o n m k).
(** The calls that leave the last measurement alone: predictions (raising or not), update(None), and reading the
    properties, in any number and order, with any configuration. *)
Inductive uk_quiet : st -> st -> Prop :=
| quk_stop s : uk_quiet s s
| quk_predict dt fx (c : uk_cfg o n m k) s s' : uk_quiet (fst (uk_predict dt fx c s)) s' -> uk_quiet s s'
| quk_none R hx (c : uk_cfg o n m k) s s' : uk_quiet (fst (uk_update None R hx c s)) s' -> uk_quiet s s'
| quk_ll s s' : uk_quiet (snd (uk_log_likelihood lpdf s)) s' -> uk_quiet s s'
| quk_lk s s' : uk_quiet (snd (uk_likelihood lpdf fmin s)) s' -> uk_quiet s s'
| quk_ma s s' : uk_quiet (snd (uk_mahalanobis s)) s' -> uk_quiet s s'.

Definition uk_coh (y : M o 1 m) (S SI : M o m m) (s : st) : Prop :=
  u_y s = y /\ u_S s = S /\ u_SI s = SI /\
  (forall v, u_loglik s = Some v -> v = lpdf y S) /\
  (forall v, u_lik s = Some v -> v = if seqb o (sexp o (lpdf y S)) (s0 o) then fmin else sexp o (lpdf y S)) /\
  (forall v, u_mahal s = Some v -> v = ssqrt o (mget ((y @ SI) @ y^T) 0 0)).

Lemma uk_quiet_coh y S SI s s' : uk_quiet s s' -> uk_coh y S SI s -> uk_coh y S SI s'.
Proof.
  induction 1 as [s|dt fx c s s' _ IH|R hx c s s' _ IH|s s' _ IH|s s' _ IH|s s' _ IH]; intros C; [exact C|apply IH; clear IH; unfold uk_predict; destruct (uk_process_sigmas _ _ _ _); [|exact C];
    destruct (unscented_transform _ _ _ _ _ _); destruct (pt_sigmas _ _ _); exact C|apply IH; exact C|..];
    apply IH; clear IH; destruct C as (h1 & h2 & h3 & h4 & h5 & h6).
  - unfold uk_log_likelihood. destruct (u_loglik s) eqn:E; cbn; repeat split; cbn; auto; try congruence.
    all: intros v ev; first [apply h4; congruence|apply h5; congruence|apply h6; congruence|injection ev as <-; congruence].
  - unfold uk_likelihood. destruct (u_lik s) eqn:E; [cbn; repeat split; auto; intros v ev; first [apply h4; congruence|apply h5; congruence|apply h6; congruence]|].
    unfold uk_log_likelihood. destruct (u_loglik s) eqn:E1; cbn; repeat split; cbn; auto; try congruence.
    all: intros v ev; first [apply h4; congruence|apply h5; congruence|apply h6; congruence|injection ev as <-; rewrite ?h1, ?h2, ?(h4 _ eq_refl); reflexivity].
  - unfold uk_mahalanobis. destruct (u_mahal s) eqn:E; cbn; repeat split; cbn; auto; try congruence.
    all: intros v ev; first [apply h4; congruence|apply h5; congruence|apply h6; congruence|injection ev as <-; congruence].
Qed.
Lemma uk_reads y S SI s : uk_coh y S SI s ->
  fst (uk_log_likelihood lpdf s) = lpdf y S /\
  fst (uk_likelihood lpdf fmin s) = (if seqb o (sexp o (lpdf y S)) (s0 o) then fmin else sexp o (lpdf y S)) /\
  fst (uk_mahalanobis s) = ssqrt o (mget ((y @ SI) @ y^T) 0 0).
Proof.
  intros (h1 & h2 & h3 & h4 & h5 & h6). unfold uk_likelihood, uk_log_likelihood, uk_mahalanobis.
  destruct (u_loglik s) eqn:E1; destruct (u_lik s) eqn:E2; destruct (u_mahal s) eqn:E3; cbn;
    rewrite ?h1, ?h2, ?h3, ?(h4 _ eq_refl), ?(h5 _ eq_refl), ?(h6 _ eq_refl); auto.
Qed.
End uk.

Section ck.
Variable o : nops.
Variables n m : nat.
Variable lpdf : M o m 1 -> M o m m -> sc o.
Variable fmin : sc o.
Notation st := (ck_st o n m).
(** The calls that leave the last measurement alone: predictions (raising or not), update(None), and reading the
    properties, in any number and order, with any configuration. *)
Inductive ck_quiet : st -> st -> Prop :=
| qck_stop s : ck_quiet s s
| qck_predict dt (c : ck_cfg o n m) s s' : ck_quiet (fst (ck_predict dt c s)) s' -> ck_quiet s s'
| qck_none R (c : ck_cfg o n m) s s' : ck_quiet (fst (ck_update None R c s)) s' -> ck_quiet s s'
| qck_ll s s' : ck_quiet (snd (ck_log_likelihood lpdf s)) s' -> ck_quiet s s'
| qck_lk s s' : ck_quiet (snd (ck_likelihood lpdf fmin s)) s' -> ck_quiet s s'
| qck_ma s s' : ck_quiet (snd (ck_mahalanobis s)) s' -> ck_quiet s s'.

Definition ck_coh (y : M o m 1) (S SI : M o m m) (s : st) : Prop :=
  c_y s = y /\ c_S s = S /\ c_SI s = SI /\
  (forall v, c_loglik s = Some v -> v = lpdf y S) /\
  (forall v, c_lik s = Some v -> v = if seqb o (sexp o (lpdf y S)) (s0 o) then fmin else sexp o (lpdf y S)) /\
  (forall v, c_mahal s = Some v -> v = ssqrt o (mget ((y^T @ SI) @ y) 0 0)).

Lemma ck_quiet_coh y S SI s s' : ck_quiet s s' -> ck_coh y S SI s -> ck_coh y S SI s'.
Proof.
  induction 1 as [s|dt c s s' _ IH|R c s s' _ IH|s s' _ IH|s s' _ IH|s s' _ IH]; intros C; [exact C|apply IH; clear IH; unfold ck_predict; destruct (spherical_radial_sigmas _ _ _); [|exact C];
    destruct (ckf_transform _ _); exact C|apply IH; exact C|..];
    apply IH; clear IH; destruct C as (h1 & h2 & h3 & h4 & h5 & h6).
  - unfold ck_log_likelihood. destruct (c_loglik s) eqn:E; cbn; repeat split; cbn; auto; try congruence.
    all: intros v ev; first [apply h4; congruence|apply h5; congruence|apply h6; congruence|injection ev as <-; congruence].
  - unfold ck_likelihood. destruct (c_lik s) eqn:E; [cbn; repeat split; auto; intros v ev; first [apply h4; congruence|apply h5; congruence|apply h6; congruence]|].
    unfold ck_log_likelihood. destruct (c_loglik s) eqn:E1; cbn; repeat split; cbn; auto; try congruence.
    all: intros v ev; first [apply h4; congruence|apply h5; congruence|apply h6; congruence|injection ev as <-; rewrite ?h1, ?h2, ?(h4 _ eq_refl); reflexivity].
  - unfold ck_mahalanobis. destruct (c_mahal s) eqn:E; cbn; repeat split; cbn; auto; try congruence.
    all: intros v ev; first [apply h4; congruence|apply h5; congruence|apply h6; congruence|injection ev as <-; congruence].
Qed.
Lemma ck_reads y S SI s : ck_coh y S SI s ->
  fst (ck_log_likelihood lpdf s) = lpdf y S /\
  fst (ck_likelihood lpdf fmin s) = (if seqb o (sexp o (lpdf y S)) (s0 o) then fmin else sexp o (lpdf y S)) /\
  fst (ck_mahalanobis s) = ssqrt o (mget ((y^T @ SI) @ y) 0 0).
Proof.
  intros (h1 & h2 & h3 & h4 & h5 & h6). unfold ck_likelihood, ck_log_likelihood, ck_mahalanobis.
  destruct (c_loglik s) eqn:E1; destruct (c_lik s) eqn:E2; destruct (c_mahal s) eqn:E3; cbn;
    rewrite ?h1, ?h2, ?h3, ?(h4 _ eq_refl), ?(h5 _ eq_refl), ?(h6 _ eq_refl); auto.
Qed.
End ck.

(** The reads after a successful update with a measurement and any quiet calls, update(None) included, are those of
    that update: of its residual and innovation covariance, which are what [y] and [S] hold. *)
Theorem C52_ekf_reads : forall (o : nops) (n m l : nat) (lpdf : M o m 1 -> M o m m -> sc o) (fmin : sc o)
    (c : ek_cfg o n m l) z hjac hx R residual SI (s s' : ek_st o n m),
  let H := hjac (e_x s) in
  let y := residual z (hx (e_x s)) in
  let S := H @ (e_P s @ H^T) + sm_or (ec_R c) R in
  ec_inv c S = Some SI ->
  ek_quiet l lpdf fmin (fst (ek_update (Some z) hjac hx R residual c s)) s' ->
  fst (ek_log_likelihood lpdf s') = lpdf y S /\
  fst (ek_likelihood lpdf fmin s') = (let v := sexp o (lpdf y S) in if seqb o v (s0 o) then fmin else v) /\
  fst (ek_mahalanobis s') = ssqrt o (mget ((y^T @ SI) @ y) 0 0).
Proof.
  intros o n m l lpdf fmin c z hjac hx R residual SI s s' H y S E q.
  apply (ek_reads (lpdf := lpdf) (fmin := fmin)). apply (ek_quiet_coh q).
  cbn [ek_update]. fold H. fold S. rewrite E. cbn. repeat split; discriminate.
Qed.
Print Assumptions C52_ekf_reads.

Theorem C52_fading_reads : forall (o : nops) (n m l : nat) (lpdf : M o m 1 -> M o m m -> sc o) (fmin : sc o)
    (c : ek_cfg o n m l) z H R SI (s s' : ek_st o n m),
  let y := z - H @ e_x s in
  let S := H @ (e_P s @ H^T) + sm_or (ec_R c) R in
  ec_inv c S = Some SI ->
  ek_quiet l lpdf fmin (fst (fk_update (Some z) R H c s)) s' ->
  fst (ek_log_likelihood lpdf s') = lpdf y S /\
  fst (ek_likelihood lpdf fmin s') = (let v := sexp o (lpdf y S) in if seqb o v (s0 o) then fmin else v) /\
  fst (ek_mahalanobis s') = ssqrt o (mget ((y^T @ SI) @ y) 0 0).
Proof.
  intros o n m l lpdf fmin c z H R SI s s' y S E q.
  apply (ek_reads (lpdf := lpdf) (fmin := fmin)). apply (ek_quiet_coh q).
  cbn [fk_update]. fold S. rewrite E. cbn. repeat split; discriminate.
Qed.
Print Assumptions C52_fading_reads.

Theorem C52_ukf_reads : forall (o : nops) (n m k : nat) (lpdf : M o 1 m -> M o m m -> sc o) (fmin : sc o)
    (c : uk_cfg o n m k) z R hx SI (s s' : uk_st o n m k),
  let sh := map_rows (opt_or (uc_hx c) hx) (u_sigmas_f s) (mzeros k m) in
  let zS := unscented_transform sh (uc_Wm c) (uc_Wc c) (Some (sm_or (uc_R c) R)) (uc_z_mean c) (uc_residual_z c) in
  let y := opt_or msub (uc_residual_z c) z (fst zS) in
  let S := snd zS in
  uc_inv c S = Some SI ->
  uk_quiet lpdf fmin (fst (uk_update (Some z) R hx c s)) s' ->
  fst (uk_log_likelihood lpdf s') = lpdf y S /\
  fst (uk_likelihood lpdf fmin s') = (let v := sexp o (lpdf y S) in if seqb o v (s0 o) then fmin else v) /\
  fst (uk_mahalanobis s') = ssqrt o (mget ((y @ SI) @ y^T) 0 0).
Proof.
  intros o n m k lpdf fmin c z R hx SI s s' sh zS y S E q.
  apply (uk_reads (lpdf := lpdf) (fmin := fmin)). apply (uk_quiet_coh q).
  cbn [uk_update]. fold sh. fold zS. rewrite (surjective_pairing zS). fold S. rewrite E. cbn. repeat split; discriminate.
Qed.
Print Assumptions C52_ukf_reads.

Theorem C52_ckf_reads : forall (o : nops) (n m : nat) (lpdf : M o m 1 -> M o m m -> sc o) (fmin : sc o)
    (c : ck_cfg o n m) z R sh zp S SI K (s s' : ck_st o n m),
  ck_measure R c s = (sh, zp, S, Some (SI, K)) ->
  let y := cc_residual_z c z zp in
  ck_quiet lpdf fmin (fst (ck_update (Some z) R c s)) s' ->
  fst (ck_log_likelihood lpdf s') = lpdf y S /\
  fst (ck_likelihood lpdf fmin s') = (let v := sexp o (lpdf y S) in if seqb o v (s0 o) then fmin else v) /\
  fst (ck_mahalanobis s') = ssqrt o (mget ((y^T @ SI) @ y) 0 0).
Proof.
  intros o n m lpdf fmin c z R sh zp S SI K s s' E y q.
  apply (ck_reads (lpdf := lpdf) (fmin := fmin)). apply (ck_quiet_coh q).
  cbn [ck_update]. rewrite E. cbn. repeat split; discriminate.
Qed.
Print Assumptions C52_ckf_reads.

(** A history: update with 5, read, a missing measurement, read: 5 is reported again ([lp] returns the residual). *)
Definition q1 (a : Q) : M QO 1 1 := [[a]].
Example C52_stale_example :
  let c : ek_cfg QO 1 1 1 := mkEC (q1 1) None (q1 1) (q1 1) (l_inv1 QS) in
  let lp : M QO 1 1 -> M QO 1 1 -> sc QO := fun y _ => mget y 0 0 in
  let s0 := ek_init (o := QO) 1 1 (1#1024)%Q in
  let s1 := fst (ek_update (Some (q1 5)) (fun _ => q1 1) (fun x => x) None msub c s0) in
  let s2 := fst (ek_update None (fun _ => q1 1) (fun x => x) None msub c (snd (ek_log_likelihood lp s1))) in
  ek_quiet 1 lp (1#1024)%Q s1 s2 /\ fst (ek_log_likelihood lp s2) = 5%Q.
Proof.
  split; [|vm_compute; reflexivity].
  apply qek_ll. apply (qek_none (c := mkEC (q1 1) None (q1 1) (q1 1) (l_inv1 QS)) (hjac := fun _ => q1 1) (hx := fun x => x) (R := None) (residual := msub)).
  apply qek_stop.
Qed.
