(** * Cached likelihood properties: C52.  Law-free: any arithmetic. *)
From Coq Require Import List QArith.
From Verif Require Import Ops ListOps Model_KF Spec_KF Proof_KF Model_EKF.
Import ListNotations.
Set Implicit Arguments.
Unset Strict Implicit.

Section Lik.
Variable o : nops.
Variables n m l : nat.
Notation kf := (kf o n m l).
Notation kf_call := (kf_call o n m l).
Variable lpdf : M o m 1 -> M o m 1 -> M o m m -> sc o.
Variable fmin : sc o.

(** The documented values, for an innovation y with covariance S whose stored inverse is SI. *)
Definition ll_of (y : M o m 1) (S : M o m m) : sc o := lpdf y (mzeros m 1) S.
Definition lik_of (y : M o m 1) (S : M o m m) : sc o :=
  if seqb o (sexp o (ll_of y S)) (s0 o) then fmin else sexp o (ll_of y S).
Definition mahal_of (y : M o m 1) (SI : M o m m) : sc o :=
  ssqrt o (mget (mdot (mdot (mtr y) SI) y) 0 0).

(** Calls that start a new measurement. *)
Definition measures (c : kf_call) : Prop :=
  match c with CUpdate _ _ _ | CUpdateSS _ | CUpdateCorr _ _ _ => True | _ => False end.
(** Every call except update_sequential; the density routine is the module's one. *)
Definition quiet (c : kf_call) : Prop :=
  match c with
  | CUpdateSeq _ _ _ _ _ _ => False
  | CLogLik lp => lp = lpdf
  | CLik lp fm => lp = lpdf /\ fm = fmin
  | _ => True
  end.
(** Calls that do not measure. *)
Definition passive (c : kf_call) : Prop := quiet c /\ ~ measures c.

Definition coherent (s : kf) : Prop :=
  (forall v, kf_loglik s = Some v -> v = ll_of (kf_y s) (kf_S s)) /\
  (forall v, kf_lik s = Some v -> v = lik_of (kf_y s) (kf_S s)) /\
  (forall v, kf_mahal s = Some v -> v = mahal_of (kf_y s) (kf_SI s)).

Lemma measures_none c (s : kf) : measures c ->
  kf_loglik (fst (kf_step c s)) = None /\ kf_lik (fst (kf_step c s)) = None /\ kf_mahal (fst (kf_step c s)) = None.
Proof.
  destruct c; simpl measures; try tauto; intros _; destruct s, z; kf_compute;
    try (destruct (kf_inv _)); repeat split; reflexivity.
Qed.

Lemma measures_coherent c s : measures c -> coherent (fst (kf_step c s)).
Proof.
  intros H; destruct (measures_none s H) as [a [b d]]; unfold coherent; rewrite a, b, d;
    split; [|split]; discriminate.
Qed.

Lemma passive_fields c s : passive c ->
  let s' := fst (kf_step c s) in kf_y s' = kf_y s /\ kf_S s' = kf_S s /\ kf_SI s' = kf_SI s.
Proof.
  intros [q nm]; destruct c; simpl in *; try tauto.
  all: destruct s; unfold kf_log_likelihood, kf_likelihood, kf_log_likelihood, kf_mahalanobis, kf_set_alpha; simpl; destruct kf_loglik; simpl.
  all: repeat (match goal with |- context [match ?d with _ => _ end] => destruct d end; simpl; auto).
  all: auto.
Qed.

Lemma quiet_coherent c s : quiet c -> coherent s -> coherent (fst (kf_step c s)).
Proof.
  intros q C; destruct c; try (apply measures_coherent; exact I); simpl in *; try tauto.
  - subst. pose proof C as [C1 [C2 C3]]; unfold kf_log_likelihood; destruct (Model_KF.kf_loglik s) eqn:e; simpl; [exact C|].
    destruct s; simpl in *; split; [|split]; simpl; auto. intros v E; inversion E; reflexivity.
  - destruct q; subst. pose proof C as [C1 [C2 C3]]; unfold kf_likelihood, kf_log_likelihood.
    destruct (Model_KF.kf_lik s) eqn:e; simpl; [exact C|].
    destruct (Model_KF.kf_loglik s) eqn:e1; destruct s; simpl in *; subst; (split; [|split]); simpl; intros v E;
      try (apply C3; exact E); inversion E; subst; auto; unfold lik_of; rewrite <- ?(C1 _ eq_refl); reflexivity.
  - pose proof C as [C1 [C2 C3]]; unfold kf_mahalanobis; destruct (Model_KF.kf_mahal s) eqn:e; simpl; [exact C|].
    destruct s; simpl in *; split; [|split]; simpl; auto. intros v E; inversion E; reflexivity.
  - destruct v; simpl; auto; destruct s; simpl; destruct (sltb o s0 (s1 o)); simpl; auto.
Qed.

Lemma coherent_reads s : coherent s ->
  fst (kf_log_likelihood lpdf s) = ll_of (kf_y s) (kf_S s) /\
  fst (kf_likelihood lpdf fmin s) = lik_of (kf_y s) (kf_S s) /\
  fst (kf_mahalanobis s) = mahal_of (kf_y s) (kf_SI s).
Proof.
  intros [C1 [C2 C3]]. unfold kf_likelihood, kf_mahalanobis, kf_log_likelihood.
  destruct (kf_loglik s) eqn:e1; destruct (kf_lik s) eqn:e2; destruct (kf_mahal s) eqn:e3; simpl;
    rewrite ?(C1 _ eq_refl), ?(C2 _ eq_refl), ?(C3 _ eq_refl); repeat split; reflexivity.
Qed.

Lemma run_cons c cs (s : kf) : kf_run (c :: cs) s = kf_run cs (fst (kf_step c s)).
Proof. reflexivity. Qed.

Lemma run_mid pre c post (s : kf) : kf_run (pre ++ c :: post) s = kf_run post (fst (kf_step c (kf_run pre s))).
Proof. rewrite run_app. apply run_cons. Qed.
Lemma step_update z R H (s : kf) : kf_step (CUpdate z R H) s = kf_update z R H s.
Proof. reflexivity. Qed.

Lemma run_coherent cs s : Forall quiet cs -> coherent s -> coherent (kf_run cs s).
Proof.
  revert s; induction cs as [|c cs IH]; intros s q C; [exact C|].
  inversion q; subst. apply IH; auto. apply quiet_coherent; auto.
Qed.
Lemma run_passive cs s : Forall passive cs ->
  kf_y (kf_run cs s) = kf_y s /\ kf_S (kf_run cs s) = kf_S s /\ kf_SI (kf_run cs s) = kf_SI s.
Proof.
  revert s; induction cs as [|c cs IH]; intros s q; [auto|].
  inversion q; subst. destruct (IH (fst (kf_step c s)) H2) as [a [b d]].
  destruct (passive_fields s H1) as [a' [b' d']].
  unfold kf_run in *; simpl; rewrite a, b, d; auto.
Qed.
End Lik.

(** ** C52.  After any history in which some update, update_steadystate or update_correlated
    was made and update_sequential not since, the three properties are those of the current
    y, S, SI, however often and in whatever order they were read before. *)
Theorem C52_reads_are_current : forall (o : nops) (n m l : nat) (lpdf : M o m 1 -> M o m 1 -> M o m m -> sc o) (fmin : sc o)
    (pre post : list (kf_call o n m l)) (c : kf_call o n m l) (s : kf o n m l),
  measures c -> Forall (quiet lpdf fmin) post ->
  let s' := kf_run (pre ++ c :: post) s in
  fst (kf_log_likelihood lpdf s') = ll_of lpdf (kf_y s') (kf_S s') /\
  fst (kf_likelihood lpdf fmin s') = lik_of lpdf fmin (kf_y s') (kf_S s') /\
  fst (kf_mahalanobis s') = mahal_of (kf_y s') (kf_SI s').
Proof.
  intros o n m l lpdf fmin pre post c s Hc Hq s'. apply coherent_reads.
  unfold s', kf_run. rewrite fold_left_app. simpl. apply run_coherent; auto.
  apply measures_coherent; auto.
Qed.
Print Assumptions C52_reads_are_current.

(** ... in particular after a successful update followed by predictions and reads, they are those
    of the innovation of that update. *)
Opaque kf_update kf_step.
Theorem C52_reads_after_update : forall (o : nops) (n m l : nat) (lpdf : M o m 1 -> M o m 1 -> M o m m -> sc o) (fmin : sc o)
    (pre post : list (kf_call o n m l)) (z : M o m 1) (R : M o m m) (H : M o m n) (SI : M o m m) (s : kf o n m l),
  let p := kf_run pre s in
  let y := msub z (mdot H (kf_x p)) in
  let S := madd (mdot H (mdot (kf_P p) (mtr H))) R in
  kf_inv p S = Some SI -> Forall (passive lpdf fmin) post ->
  let s' := kf_run (pre ++ CUpdate (Some z) (Some (Mat R)) (Some H) :: post) s in
  fst (kf_log_likelihood lpdf s') = lpdf y (mzeros m 1) S /\
  fst (kf_likelihood lpdf fmin s') =
    (let v := sexp o (lpdf y (mzeros m 1) S) in if seqb o v (s0 o) then fmin else v) /\
  fst (kf_mahalanobis s') = ssqrt o (mget (mdot (mdot (mtr y) SI) y) 0 0).
Proof.
  intros o n m l lpdf fmin pre post z R H SI s p y S E P s'.
  assert (Q : Forall (quiet lpdf fmin) post) by (eapply Forall_impl; [|exact P]; intros a [q _]; exact q).
  destruct (@C52_reads_are_current o n m l lpdf fmin pre post (CUpdate (Some z) (Some (Mat R)) (Some H)) s I Q) as [a [b c]].
  assert (F : kf_y s' = y /\ kf_S s' = S /\ kf_SI s' = SI).
  { unfold s'. rewrite run_mid, step_update. fold p. clearbody p. clear s' a b c.
    destruct (@run_passive o n m l lpdf fmin post (fst (kf_update (Some z) (Some (Mat R)) (Some H) p)) P) as [f1 [f2 f3]].
    rewrite f1, f2, f3.
    destruct (@update_ok_fields o n m l z (Some (Mat R)) (Some H) SI p E) as [_ [_ [_ [_ [g1 [g2 g3]]]]]].
    repeat split; assumption. }
  destruct F as [f1 [f2 f3]]. fold s' in a, b, c. rewrite f1, f2 in a. rewrite f1, f2 in b. rewrite f1, f3 in c. auto.
Qed.
Print Assumptions C52_reads_after_update.

Transparent kf_update kf_step.

(** The likelihood is never zero. *)
Theorem C52_likelihood_not_zero : forall (o : nops) (n m l : nat) (lpdf : M o m 1 -> M o m 1 -> M o m m -> sc o) (fmin : sc o)
    (pre post : list (kf_call o n m l)) (c : kf_call o n m l) (s : kf o n m l),
  seqb o fmin (s0 o) = false -> measures c -> Forall (quiet lpdf fmin) post ->
  seqb o (fst (kf_likelihood lpdf fmin (kf_run (pre ++ c :: post) s))) (s0 o) = false.
Proof.
  intros o n m l lpdf fmin pre post c s Hf Hc Hq.
  destruct (C52_reads_are_current pre s Hc Hq) as [_ [E _]]. rewrite E. unfold lik_of.
  destruct (seqb o (sexp o _) (s0 o)) eqn:e; assumption.
Qed.
Print Assumptions C52_likelihood_not_zero.

(** Stale values.  [lp] is a density routine that returns the innovation it was given. *)
Definition q1 (a : Q) : M QO 1 1 := [[a]].
Definition lp : M QO 1 1 -> M QO 1 1 -> M QO 1 1 -> sc QO := fun y _ _ => mget y 0 0.

(** update_sequential changes y but leaves the caches: the second read reports the first
    innovation, 5, where y is now 4 - 5/2 = 3/2. *)
Theorem C52_sequential_refuted :
  let k := @kf_init QO 1 1 1 (1#1024)%Q (l_inv1 QS) in
  let a := kf_run [CUpdate (Some (q1 5)) None (Some (q1 1)); CLogLik lp;
                   @CUpdateSeq QO 1 1 1 1 (l_inv1 QS) 0 (q1 4) None (Some (q1 1))] k in
  kf_y a = q1 (3#2) /\ fst (kf_log_likelihood lp a) = 5%Q /\ ll_of lp (kf_y a) (kf_S a) = (3#2)%Q.
Proof. repeat split; vm_compute; reflexivity. Qed.
Print Assumptions C52_sequential_refuted.

(** update(None): KalmanFilter resets y to zero and the caches, so reads the density of a zero
    innovation; EKF and FadingKalmanFilter go on reporting the previous measurement's. *)
Theorem C52_ekf_missing_refuted :
  let k := @kf_init QO 1 1 1 (1#1024)%Q (l_inv1 QS) in
  let k3 := kf_run [CUpdate (Some (q1 5)) None (Some (q1 1)); CLogLik lp; CUpdate None None None] k in
  let c : ek_cfg QO 1 1 1 := mkEC (q1 1) None (q1 1) (q1 1) (l_inv1 QS) in
  let lp2 : M QO 1 1 -> M QO 1 1 -> sc QO := fun y _ => mget y 0 0 in
  let s1 := fst (ek_update (Some (q1 5)) (fun _ => q1 1) (fun x => x) None msub c (@ek_init QO 1 1 (1#1024)%Q)) in
  let s2 := snd (ek_log_likelihood lp2 s1) in
  let s3 := fst (ek_update None (fun _ => q1 1) (fun x => x) None msub c s2) in
  let f3 := fst (fk_update None None (q1 1) c s2) in
  fst (kf_log_likelihood lp k3) = 0%Q /\ fst (ek_log_likelihood lp2 s3) = 5%Q /\ fst (ek_log_likelihood lp2 f3) = 5%Q.
Proof. repeat split; vm_compute; reflexivity. Qed.
Print Assumptions C52_ekf_missing_refuted.

Example C52_example :
  let k := @kf_init QO 1 1 1 (1#1024)%Q (l_inv1 QS) in
  let a := kf_run [CUpdate (Some (q1 5)) None (Some (q1 1)); CLogLik lp; CLik lp (1#1024)%Q; CPredict None None None None] k in
  fst (kf_log_likelihood lp a) = 5%Q /\ fst (kf_likelihood lp (1#1024)%Q a) = 5%Q /\ fst (kf_mahalanobis a) = (25#2)%Q.
Proof. repeat split; vm_compute; reflexivity. Qed.
