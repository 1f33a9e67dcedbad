(** * KalmanFilter properties that hold for any arithmetic (bit exact).
    Covers C05-C11 and the structural part of C12. *)
From Coq Require Import List Arith Bool Lia QArith.
From Verif Require Import Ops Model_KF Spec_KF Proof_KF ListOps.
Import ListNotations.
Local Open Scope nat_scope.

(** A concrete filter used in the examples: dim_x = dim_z = dim_u = 1 over the
    rationals, x = 2, P = 3, F = 2, Q = 1, H = 1, R = 1, B = 1. *)
Definition ex_kf : kf QO 1 1 1 :=
  set_kf_x ([[2%Q]] : M QO 1 1) (set_kf_P ([[3%Q]] : M QO 1 1)
  (set_kf_F ([[2%Q]] : M QO 1 1) (set_kf_H ([[1%Q]] : M QO 1 1)
  (set_kf_B (Some ([[1%Q]] : M QO 1 1)) (@kf_init QO 1 1 1 (1#1024)%Q (l_inv1 QS)))))).
(** The same filter whose inverse routine always raises. *)
Definition ex_kf_sing : kf QO 1 1 1 := set_kf_inv (fun _ => None) ex_kf.
Definition ex_z (q : Q) : M QO 1 1 := [[q]].

(** ** C05 *)
Theorem C05_update_none : forall (o : nops) (n m l : nat) (R : option (sm o m))
    (H : option (M o m n)) (s : kf o n m l),
  let (s', e) := kf_update None R H s in
  e = None /\
  kf_x s' = kf_x s /\ kf_P s' = kf_P s /\ kf_S s' = kf_S s /\ kf_SI s' = kf_SI s /\
  kf_K s' = kf_K s /\ kf_x_prior s' = kf_x_prior s /\ kf_P_prior s' = kf_P_prior s /\
  kf_x_post s' = kf_x s /\ kf_P_post s' = kf_P s /\
  kf_y s' = mzeros m 1 /\ kf_z s' = repeat None m /\
  kf_loglik s' = None /\ kf_lik s' = None /\ kf_mahal s' = None.
Proof. intros; simpl; repeat split. Qed.
Print Assumptions C05_update_none.

(** Any number of skipped measurements, in any of the update flavours. *)
Theorem C05_skipping_run : forall (o : nops) (n m l : nat) (cs : list (kf_call o n m l)) (s : kf o n m l),
  (forall c, In c cs ->
     (exists R H, c = CUpdate None R H) \/ (exists R H, c = CUpdateCorr None R H)
     \/ c = CUpdateSS None) ->
  let s' := kf_run cs s in
  kf_x s' = kf_x s /\ kf_P s' = kf_P s /\ kf_S s' = kf_S s /\ kf_K s' = kf_K s /\
  (cs <> [] -> kf_x_post s' = kf_x s /\ kf_P_post s' = kf_P s).
Proof.
  intros o n m l cs; induction cs as [|c cs IH]; intros s Hc; [simpl; repeat split; congruence|].
  cbn zeta. change (kf_run (c :: cs) s) with (kf_run cs (fst (kf_step c s))).
  assert (E : kf_x (fst (kf_step c s)) = kf_x s /\ kf_P (fst (kf_step c s)) = kf_P s
    /\ kf_S (fst (kf_step c s)) = kf_S s /\ kf_K (fst (kf_step c s)) = kf_K s
    /\ kf_x_post (fst (kf_step c s)) = kf_x s /\ kf_P_post (fst (kf_step c s)) = kf_P s).
  { destruct (Hc c (or_introl eq_refl)) as [(R & H & ->)|[(R & H & ->)| ->]]; repeat split. }
  destruct E as (E1 & E2 & E3 & E4 & E5 & E6).
  destruct (IH (fst (kf_step c s))) as (H1 & H2 & H3 & H4 & H5).
  { intros c' Hin; apply Hc; right; exact Hin. }
  repeat split; try congruence; destruct cs as [|c' cs].
  1, 3: simpl in *; congruence.
  all: destruct H5; congruence.
Qed.
Print Assumptions C05_skipping_run.

Example C05_example :
  let s1 := fst (kf_update (Some (ex_z 5)) None None ex_kf) in
  kf_x s1 <> kf_x ex_kf /\ kf_P (fst (kf_update None None None s1)) = kf_P s1.
Proof. vm_compute. split; [discriminate|reflexivity]. Qed.

(** ** C06 *)
Theorem C06_prior_after_predict : forall (o : nops) (n m l : nat)
    (before after : list (kf_call o n m l)) (c : kf_call o n m l) (s : kf o n m l),
  is_predict c = true -> (forall d, In d after -> is_predict d = false) ->
  let at_predict := kf_run (before ++ [c]) s in
  let now := kf_run (before ++ c :: after) s in
  kf_x_prior now = kf_x at_predict /\ kf_P_prior now = kf_P at_predict.
Proof.
  intros o n m l before after c s Hc Hafter.
  change (c :: after) with ([c] ++ after). rewrite app_assoc. cbn zeta.
  rewrite run_app.
  destruct (run_prior_const o n m l after (kf_run (before ++ [c]) s) Hafter) as [-> ->].
  rewrite run_app. apply (step_predict_prior o n m l c (kf_run before s) Hc).
Qed.
Print Assumptions C06_prior_after_predict.

Theorem C06_post_after_update : forall (o : nops) (n m l : nat)
    (before after : list (kf_call o n m l)) (c : kf_call o n m l) (s : kf o n m l),
  is_update c = true -> snd (kf_step c (kf_run before s)) = None ->
  all_updates_fail after (kf_run (before ++ [c]) s) ->
  let at_update := kf_run (before ++ [c]) s in
  let now := kf_run (before ++ c :: after) s in
  kf_x_post now = kf_x at_update /\ kf_P_post now = kf_P at_update.
Proof.
  intros o n m l before after c s Hc Hok Hafter.
  change (c :: after) with ([c] ++ after). rewrite app_assoc. cbn zeta.
  rewrite run_app.
  destruct (run_post_const o n m l after _ Hafter) as [-> ->].
  rewrite run_app. apply (step_update_post o n m l c (kf_run before s) Hc Hok).
Qed.
Print Assumptions C06_post_after_update.

(** With no prediction (update) at all the initial values stay. *)
Theorem C06_never : forall (o : nops) (n m l : nat) (cs : list (kf_call o n m l)) (s : kf o n m l),
  ((forall d, In d cs -> is_predict d = false) ->
     kf_x_prior (kf_run cs s) = kf_x_prior s /\ kf_P_prior (kf_run cs s) = kf_P_prior s) /\
  (all_updates_fail cs s ->
     kf_x_post (kf_run cs s) = kf_x_post s /\ kf_P_post (kf_run cs s) = kf_P_post s).
Proof. intros; split; [apply run_prior_const | apply run_post_const]. Qed.
Print Assumptions C06_never.

Example C06_example :
  let h := [CPredict None None None None; CUpdate (Some (ex_z 5)) None None; CMahal;
            CPredict None None None None] in
  kf_x_prior (kf_run h ex_kf) = kf_x (kf_run h ex_kf) /\
  kf_x_post (kf_run h ex_kf) <> kf_x (kf_run h ex_kf) /\
  snd (kf_step (CUpdate (Some (ex_z 5)) None None) (kf_run [CPredict None None None None] ex_kf)) = None.
Proof. vm_compute. repeat split; discriminate. Qed.

(** ** C07: a failed call leaves the estimate alone. *)
Theorem C07_failed_call_atomic : forall (o : nops) (n m l : nat) (c : kf_call o n m l)
    (s s' : kf o n m l) (e : exn),
  kf_step c s = (s', Some e) ->
  kf_x s' = kf_x s /\ kf_P s' = kf_P s /\ kf_x_prior s' = kf_x_prior s /\
  kf_P_prior s' = kf_P_prior s /\ kf_x_post s' = kf_x_post s /\ kf_P_post s' = kf_P_post s /\
  kf_K s' = kf_K s /\ kf_SI s' = kf_SI s /\ kf_z s' = kf_z s.
Proof.
  intros o n m l c s s' e E. pose proof (step_failed o n m l c s e) as H.
  rewrite E in H. apply H; reflexivity.
Qed.
Print Assumptions C07_failed_call_atomic.

(** When exactly update raises, and what it has stored by then. *)
Theorem C07_update_raises_iff : forall (o : nops) (n m l : nat) (z : option (M o m 1))
    (R : option (sm o m)) (H : option (M o m n)) (s : kf o n m l),
  let Hm := opt_or (kf_H s) H in
  let Sm := madd (mdot Hm (mdot (kf_P s) (mtr Hm))) (sm_or (kf_R s) R) in
  (snd (kf_update z R H s) <> None <-> (z <> None /\ kf_inv s Sm = None)) /\
  (forall e, snd (kf_update z R H s) = Some e ->
     e = LinAlgError /\ kf_S (fst (kf_update z R H s)) = Sm /\
     exists v, z = Some v /\ kf_y (fst (kf_update z R H s)) = msub v (mdot Hm (kf_x s))).
Proof.
  intros o n m l [z|] R H s Hm Sm; unfold kf_update; simpl.
  - change (madd (mdot (opt_or (kf_H s) H) (mdot (kf_P s) (mtr (opt_or (kf_H s) H))))
       (sm_or (kf_R s) R)) with Sm.
    destruct (kf_inv s Sm) eqn:E; simpl.
    + split; [split; [congruence|intros [_ ?]; congruence]|discriminate].
    + split; [split; intros; [split; congruence|discriminate]|].
      intros e He; injection He as <-. repeat split. exists z; split; reflexivity.
  - split; [split; [congruence|intros [? _]; congruence]|discriminate].
Qed.
Print Assumptions C07_update_raises_iff.

Example C07_example :
  snd (kf_step (CUpdate (Some (ex_z 5)) None None) ex_kf_sing) = Some LinAlgError /\
  kf_y (fst (kf_step (CUpdate (Some (ex_z 5)) None None) ex_kf_sing)) = [[3%Q]].
Proof. vm_compute. split; reflexivity. Qed.

(** ** C08 *)
Theorem C08_get_prediction : forall (o : nops) (n m l : nat) u B F Q (s : kf o n m l),
  kf_get_prediction u B F Q s = (kf_x (kf_predict u B F Q s), kf_P (kf_predict u B F Q s)).
Proof. reflexivity. Qed.
Print Assumptions C08_get_prediction.

Theorem C08_get_update : forall (o : nops) (n m l : nat) (z : option (M o m 1)) (s : kf o n m l),
  kf_get_update z s =
  match kf_update z None None s with
  | (s', None) => Ok (kf_x s', kf_P s')
  | (_, Some e) => Err e
  end.
Proof.
  intros o n m l [z|] s; [|reflexivity].
  unfold kf_get_update, kf_update; simpl.
  destruct (kf_inv s _); reflexivity.
Qed.
Print Assumptions C08_get_update.

Example C08_example :
  kf_get_update (Some (ex_z 5)) ex_kf = Ok ([[17#4]], [[3#4]])%Q /\
  kf_get_update (Some (ex_z 5)) ex_kf_sing = Err LinAlgError.
Proof. vm_compute. split; reflexivity. Qed.

(** ** C09: batch_filter is the loop.  [row_calls] is the pair of calls a user
    makes for one epoch. *)
Theorem C09_batch_filter_is_loop : forall (o : nops) (n m l : nat) zs Fs Qs Hs Rs Bs us uf
    (s s' : kf o n m l) out,
  kf_batch_filter zs Fs Qs Hs Rs Bs us uf s = (s', Ok out) ->
  let k := length zs in
  let rows := zip_rows zs (deflt (Some (kf_F s)) k Fs) (deflt (Some (Mat (kf_Q s))) k Qs)
       (deflt (Some (kf_H s)) k Hs) (deflt (Some (Mat (kf_R s))) k Rs)
       (deflt (kf_B s) k Bs) (deflt (Some (mzeros l 1)) k us) in
  s' = kf_run (flat_map (row_calls uf) rows) s /\
  length out = length rows /\
  (forall i b, nth_error out i = Some b ->
    exists r, nth_error rows i = Some r /\
    let before := kf_run (flat_map (row_calls uf) (firstn i rows)) s in
    let mid := kf_run (firstn 1 (row_calls uf r)) before in
    let after := kf_run (row_calls uf r) before in
    if uf then b = mkBrow (kf_x mid) (kf_P mid) (kf_x after) (kf_P after)
    else b = mkBrow (kf_x after) (kf_P after) (kf_x mid) (kf_P mid)).
Proof.
  intros o n m l zs Fs Qs Hs Rs Bs us uf s s' out E k rows.
  destruct (batch_loop_run o n m l uf rows s s' out E) as (H1 & H2 & H3).
  repeat split; try assumption.
  intros i b Hb; destruct (H3 i b Hb) as (r & Hr & He); exists r; split; [exact Hr|].
  destruct uf; exact He.
Qed.
Print Assumptions C09_batch_filter_is_loop.

(** The zip truncates to the shortest supplied list. *)
Theorem C09_length : forall (o : nops) (n m l : nat) zs Fs Qs Hs Rs Bs us uf (s s' : kf o n m l) out,
  kf_batch_filter zs Fs Qs Hs Rs Bs us uf s = (s', Ok out) ->
  let len {A} (d : option (list A)) := match d with None => length zs | Some l => length l end in
  length out = min (length zs) (min (len Fs) (min (len Qs) (min (len Hs)
    (min (len Rs) (min (len Bs) (len us)))))).
Proof.
  intros o n m l zs Fs Qs Hs Rs Bs us uf s s' out E len.
  destruct (C09_batch_filter_is_loop _ _ _ _ _ _ _ _ _ _ _ _ _ _ _ E) as (_ & -> & _).
  rewrite zip_rows_length. unfold deflt, len.
  destruct Fs, Qs, Hs, Rs, Bs, us; rewrite ?repeat_length; reflexivity.
Qed.
Print Assumptions C09_length.

(** With no optional lists, an epoch is [predict()] and [update(z)] with no
    arguments (filters without a control matrix, as the class initialises it). *)
Theorem C09_defaults : forall (o : nops) (n m l : nat) zs uf (s s' : kf o n m l) out,
  kf_B s = None ->
  kf_batch_filter zs None None None None None None uf s = (s', Ok out) ->
  let p := CPredict None None None None in
  s' = kf_run (flat_map (fun z => let u := CUpdate z None None in if uf then [u; p] else [p; u]) zs) s
  /\ length out = length zs.
Proof.
  intros o n m l zs uf s s' out HB E p; split.
  - destruct (C09_batch_filter_is_loop _ _ _ _ _ _ _ _ _ _ _ _ _ _ _ E) as (-> & _ & _).
    clear E out. set (k := length zs).
    cut (forall s0 : kf o n m l, kf_F s0 = kf_F s -> kf_Q s0 = kf_Q s -> kf_H s0 = kf_H s ->
           kf_R s0 = kf_R s -> kf_B s0 = None ->
      kf_run (flat_map (row_calls uf) (zip_rows zs (deflt (Some (kf_F s)) k None)
        (deflt (Some (Mat (kf_Q s))) k None) (deflt (Some (kf_H s)) k None)
        (deflt (Some (Mat (kf_R s))) k None) (deflt (kf_B s) k None)
        (deflt (Some (mzeros l 1)) k None))) s0 =
      kf_run (flat_map (fun z => let u := CUpdate z None None in if uf then [u; p] else [p; u]) zs) s0).
    { intros HH; apply HH; auto. }
    rewrite HB. subst k. induction zs as [|z zs IH]; intros s0 hF hQ hH hR hB; [reflexivity|].
    cbn [length deflt repeat zip_rows flat_map]. rewrite !run_app.
    assert (Ep : forall a : kf o n m l, kf_F a = kf_F s -> kf_Q a = kf_Q s -> kf_B a = None ->
       kf_predict (Some (mzeros l 1)) None (Some (kf_F s)) (Some (Mat (kf_Q s))) a
       = kf_predict None None None None a).
    { intros a h1 h2 h3; unfold kf_predict; simpl; rewrite h1, h2, h3; reflexivity. }
    assert (Eu : forall a : kf o n m l, kf_H a = kf_H s -> kf_R a = kf_R s ->
       kf_update z (Some (Mat (kf_R s))) (Some (kf_H s)) a = kf_update z None None a).
    { intros a h1 h2; unfold kf_update; destruct z; simpl; rewrite ?h1, ?h2; reflexivity. }
    assert (E : kf_run (row_calls uf (mkRow z (Some (kf_F s)) (Some (Mat (kf_Q s))) (Some (kf_H s))
        (Some (Mat (kf_R s))) None (Some (mzeros l 1)))) s0 =
        kf_run (let u := CUpdate z None None in if uf then [u; p] else [p; u]) s0).
    { destruct uf; simpl.
      - rewrite Eu by assumption.
        destruct (step_config o n m l (CUpdate z None None) s0) as (c1&c2&c3&_).
        simpl in c1, c2, c3. apply Ep; congruence.
      - rewrite Ep by assumption. rewrite Eu by assumption. reflexivity. }
    rewrite E.
    destruct (run_config o n m l (let u := CUpdate z None None in if uf then [u; p] else [p; u]) s0)
      as (c1&c2&c3&c4&c5&_).
    cbn zeta in *; apply IH; etransitivity; eassumption.
  - rewrite (C09_length _ _ _ _ _ _ _ _ _ _ _ _ _ _ _ E). lia.
Qed.
Print Assumptions C09_defaults.

(** Processing a recording in two batches is the same as in one. *)
Theorem C09_split : forall (o : nops) (n m l : nat) zs1 zs2 uf (s : kf o n m l),
  kf_batch_filter (zs1 ++ zs2) None None None None None None uf s =
  match kf_batch_filter zs1 None None None None None None uf s with
  | (s1, Err e) => (s1, Err e)
  | (s1, Ok out1) =>
      match kf_batch_filter zs2 None None None None None None uf s1 with
      | (s2, Err e) => (s2, Err e)
      | (s2, Ok out2) => (s2, Ok (out1 ++ out2))
      end
  end.
Proof.
  intros o n m l zs1 zs2 uf s. unfold kf_batch_filter, deflt.
  rewrite app_length.
  assert (Ez : forall F Q H R B u,
    zip_rows (zs1 ++ zs2) (repeat F (length zs1 + length zs2)) (repeat Q (length zs1 + length zs2))
      (repeat H (length zs1 + length zs2)) (repeat R (length zs1 + length zs2))
      (repeat B (length zs1 + length zs2)) (repeat u (length zs1 + length zs2)) =
    @zip_rows o n m l zs1 (repeat F (length zs1)) (repeat Q (length zs1))
      (repeat H (length zs1)) (repeat R (length zs1)) (repeat B (length zs1)) (repeat u (length zs1)) ++
    zip_rows zs2 (repeat F (length zs2)) (repeat Q (length zs2))
      (repeat H (length zs2)) (repeat R (length zs2)) (repeat B (length zs2)) (repeat u (length zs2))).
  { intros F Q H R B u. induction zs1 as [|z zs1 IH]; [reflexivity|]. simpl. rewrite IH; reflexivity. }
  rewrite Ez, batch_loop_app.
  destruct (batch_loop uf (zip_rows zs1 _ _ _ _ _ _) s) as [s1 [b1|e]] eqn:E; [|reflexivity].
  destruct (batch_loop_run _ _ _ _ _ _ _ _ _ E) as [-> _].
  match goal with |- context [kf_run ?cs s] =>
    destruct (run_config o n m l cs s) as (->&->&->&->&->&_) end.
  reflexivity.
Qed.
Print Assumptions C09_split.

Example C09_example :
  snd (kf_batch_filter [Some (ex_z 1); None; Some (ex_z 3)] None None None None None
         (Some [Some (ex_z 1); Some (ex_z 0)]) false ex_kf) =
  Ok [@mkBrow QO 1 [[9#7]]%Q [[13#14]]%Q [[5]]%Q [[13]]%Q; @mkBrow QO 1 [[18#7]]%Q [[33#7]]%Q [[18#7]]%Q [[33#7]]%Q]
  /\ snd (kf_batch_filter [Some (ex_z 1); None] None None None None None None true ex_kf_sing)
     = Err LinAlgError.
Proof. split; vm_compute; reflexivity. Qed.

(** ** C10 *)
Theorem C10_overrides_do_not_persist : forall (o : nops) (n m l : nat) (cs : list (kf_call o n m l))
    (s : kf o n m l),
  let s' := kf_run cs s in
  kf_F s' = kf_F s /\ kf_Q s' = kf_Q s /\ kf_B s' = kf_B s /\ kf_H s' = kf_H s /\
  kf_R s' = kf_R s /\ kf_M s' = kf_M s /\ kf_inv s' = kf_inv s.
Proof. exact run_config. Qed.
Print Assumptions C10_overrides_do_not_persist.

Theorem C10_alpha_only_by_setter : forall (o : nops) (n m l : nat) (cs : list (kf_call o n m l))
    (s : kf o n m l),
  (forall v, ~ In (CSetAlpha v) cs) -> kf_alpha_sq (kf_run cs s) = kf_alpha_sq s.
Proof.
  intros o n m l cs; induction cs as [|c cs IH]; intros s Hc; [reflexivity|].
  simpl. rewrite IH; [|intros v Hv; apply (Hc v); right; exact Hv].
  destruct c; simpl; try reflexivity.
  - unfold kf_update; destruct z; simpl; [destruct (kf_inv s _)|]; reflexivity.
  - unfold kf_update_steadystate; destruct z; reflexivity.
  - unfold kf_update_correlated; destruct z; simpl; [destruct (kf_inv s _)|]; reflexivity.
  - unfold kf_update_sequential; simpl.
    destruct (negb _); [reflexivity|]. destruct (k =? 1); [reflexivity|].
    destruct (linv _); reflexivity.
  - unfold kf_log_likelihood; destruct (kf_loglik s); reflexivity.
  - unfold kf_likelihood, kf_log_likelihood; destruct (kf_lik s), (kf_loglik s); reflexivity.
  - unfold kf_mahalanobis; destruct (kf_mahal s); reflexivity.
  - exfalso; apply (Hc v); left; reflexivity.
Qed.
Print Assumptions C10_alpha_only_by_setter.

(** A scalar Q (R) means that scalar times the identity. *)
Theorem C10_scalar_noise : forall (o : nops) (n m l : nat) u B F (q r : sc o) z H (s : kf o n m l),
  kf_predict u B F (Some (Scal q)) s = kf_predict u B F (Some (Mat (mscale q (meye n)))) s /\
  kf_update z (Some (Scal r)) H s = kf_update z (Some (Mat (mscale r (meye m)))) H s /\
  kf_update_correlated z (Some (Scal r)) H s
    = kf_update_correlated z (Some (Mat (mscale r (meye m)))) H s.
Proof. intros; repeat split. Qed.
Print Assumptions C10_scalar_noise.

(** Passing a matrix equals storing it for the duration of the call. *)
Theorem C10_override_is_temporary_assignment : forall (o : nops) (n m l : nat) u B F Q z R H (s : kf o n m l),
  kf_predict u (Some B) (Some F) (Some (Mat Q)) s =
    set_kf_B (kf_B s) (set_kf_F (kf_F s) (set_kf_Q (kf_Q s)
      (kf_predict u None None None (set_kf_B (Some B) (set_kf_F F (set_kf_Q Q s)))))) /\
  kf_update z (Some (Mat R)) (Some H) s =
    (let (s', e) := kf_update z None None (set_kf_R R (set_kf_H H s)) in
     (set_kf_R (kf_R s) (set_kf_H (kf_H s) s'), e)).
Proof.
  intros; split.
  - unfold kf_predict; simpl. destruct s; reflexivity.
  - unfold kf_update; destruct z as [z|]; simpl; [|destruct s; reflexivity].
    destruct (kf_inv s _); destruct s; reflexivity.
Qed.
Print Assumptions C10_override_is_temporary_assignment.

Example C10_example :
  kf_P (kf_predict None None (Some (ex_z 3)) (Some (@Scal QO 1 7%Q)) ex_kf) = [[34%Q]] /\
  kf_F (kf_predict None None (Some (ex_z 3)) (Some (@Scal QO 1 7%Q)) ex_kf) = [[2%Q]].
Proof. vm_compute. split; reflexivity. Qed.

(** ** C11: gains and covariances do not depend on measurement or control values.
    [same_shape] calls are equal except for the values of z, u, B (z is None in
    both or in neither). *)
Theorem C11_cov_independent_of_data : forall (o : nops) (n m l : nat)
    (cs ds : list (kf_call o n m l)) (s : kf o n m l) (x' : M o n 1),
  Forall2 same_shape cs ds ->
  let a := kf_run cs s in let b := kf_run ds (set_kf_x x' s) in
  kf_P a = kf_P b /\ kf_K a = kf_K b /\ kf_S a = kf_S b /\ kf_SI a = kf_SI b /\
  kf_P_prior a = kf_P_prior b /\ kf_P_post a = kf_P_post b.
Proof.
  intros o n m l cs ds s x' H a b.
  assert (Hab : same_cov a b).
  { apply same_cov_run; [exact H|]. unfold same_cov; repeat split. }
  unfold same_cov in Hab; tauto.
Qed.
Print Assumptions C11_cov_independent_of_data.

Example C11_example :
  Forall2 same_shape
    [CPredict None None None None; CUpdate (Some (ex_z 5)) None None; @CUpdate QO 1 1 1 None None None]
    [CPredict (Some (ex_z 1)) None None None; CUpdate (Some (ex_z 9)) None None; CUpdate None None None].
Proof. repeat constructor; discriminate. Qed.

(** ** C12 (structural part): the module level functions. *)
Theorem C12_predict : forall (o : nops) (n m l : nat) (u : M o l 1) (B : M o n l) F Q a (s : kf o n m l),
  let s' := kf_predict (Some u) (Some B) (Some F) (Some (Mat Q)) (set_kf_alpha_sq (smul o a a) s) in
  f_predict (kf_x s) (kf_P s) F Q u B a = (kf_x s', kf_P s').
Proof. reflexivity. Qed.
Print Assumptions C12_predict.

Theorem C12_steadystate : forall (o : nops) (n m l : nat) (u : M o l 1) (B : M o n l) z (s : kf o n m l),
  f_predict_steadystate (kf_x s) (kf_F s) u B = kf_x (kf_predict_steadystate u (Some B) s) /\
  f_update_steadystate (kf_x s) z (kf_K s) (kf_H s) = kf_x (kf_update_steadystate z s).
Proof. intros; split; [reflexivity|]. destruct z; reflexivity. Qed.
Print Assumptions C12_steadystate.

(** A control list without control matrices is a TypeError; with both absent
    the given Bs is ignored. *)
Theorem C12_batch_control_arguments : forall (o : nops) (n m l : nat) linv x P zs Fs Qs Hs Rs Bs us uf,
  @f_batch_filter o n m l linv x P zs Fs Qs Hs Rs None (Some us) uf = Err TypeError /\
  @f_batch_filter o n m l linv x P zs Fs Qs Hs Rs (Some Bs) None uf =
  @f_batch_filter o n m l linv x P zs Fs Qs Hs Rs None None uf.
Proof. intros; split; reflexivity. Qed.
Print Assumptions C12_batch_control_arguments.

(** ** C16: at a fixed point of the covariance recursion the steady-state methods
    give bit for bit the x of the full filter, for every measurement and control
    sequence. *)
Theorem C16_steady_state : forall (o : nops) (n m l : nat) (zus : list (M o m 1 * M o l 1)) (s : kf o n m l)
    (z0 : M o m 1) (u0 : M o l 1),
  let cycle := fun zu => [CPredict (Some (snd zu)) None None None; CUpdate (Some (fst zu)) None None] in
  let ss_cycle := fun zu => [CPredictSS (snd zu) None; CUpdateSS (Some (fst zu))] in
  all_ok (cycle (z0, u0)) s ->
  kf_P (kf_run (cycle (z0, u0)) s) = kf_P s -> kf_K (kf_run (cycle (z0, u0)) s) = kf_K s ->
  let full := kf_run (flat_map cycle zus) s in
  let steady := kf_run (flat_map ss_cycle zus) s in
  kf_x steady = kf_x full /\ kf_P steady = kf_P full /\ kf_P steady = kf_P s /\
  kf_K steady = kf_K s /\ kf_K full = kf_K s /\
  (zus <> [] -> kf_x_post steady = kf_x full /\ kf_y steady = kf_y full).
Proof.
  intros o n m l zus s z0 u0 cycle ss_cycle Hok HP HK.
  assert (G : forall zus a b,
     kf_P a = kf_P s -> kf_Q a = kf_Q s -> kf_F a = kf_F s -> kf_H a = kf_H s -> kf_R a = kf_R s ->
     kf_alpha_sq a = kf_alpha_sq s -> kf_inv a = kf_inv s -> kf_B a = kf_B s -> kf_K a = kf_K s ->
     kf_x b = kf_x a -> kf_F b = kf_F s -> kf_H b = kf_H s -> kf_B b = kf_B s -> kf_K b = kf_K s ->
     kf_P b = kf_P s ->
     let full := kf_run (flat_map cycle zus) a in
     let steady := kf_run (flat_map ss_cycle zus) b in
     kf_x steady = kf_x full /\ kf_P full = kf_P s /\ kf_P steady = kf_P s /\
     kf_K steady = kf_K s /\ kf_K full = kf_K s /\
     ((zus <> [] \/ kf_x_post b = kf_x a /\ kf_y b = kf_y a) ->
      kf_x_post steady = kf_x full /\ kf_y steady = kf_y full)).
  2:{ destruct (G zus s s) as (h1&h2&h3&h4&h5&h6); try reflexivity.
      repeat split; try assumption; try congruence; apply h6; left; assumption. }
  clear zus; induction zus as [|[z u] zus IH];
    intros a b a1 a2 a3 a4 a5 a6 a7 a8 a9 b1 b2 b3 b4 b5 b6.
  - cbn. repeat split; tauto.
  - cbn [flat_map]; rewrite !run_app. cbn zeta.
    destruct (cycle_ok _ _ _ _ _ _ _ Hok) as [SI E].
    destruct (cycle_fields _ _ _ _ z0 u0 SI s E) as (_&p2&p3&_).
    assert (Ea := E). rewrite <- a1, <- a2, <- a3, <- a4, <- a5, <- a6, <- a7 in Ea.
    destruct (cycle_fields _ _ _ _ z u SI a Ea) as (q1&q2&q3&q4).
    destruct (ss_cycle_fields _ _ _ _ z u b) as (r1&r2&r3&r4&r5).
    pose proof (cycle_alpha _ _ _ _ z u a) as q5.
    destruct (run_config _ _ _ _ (cycle (z, u)) a) as (c1&c2&c3&c4&c5&_&c7).
    destruct (run_config _ _ _ _ (ss_cycle (z, u)) b) as (d1&_&d3&d4&_).
    unfold cycle in HP, HK; cbn [fst snd] in HP, HK. rewrite HP in p2. rewrite HK in p3.
    change (cycle (z, u)) with [@CPredict o n m l (Some u) None None None; CUpdate (Some z) None None] in *.
    change (ss_cycle (z, u)) with [@CPredictSS o n m l u None; CUpdateSS (Some z)] in *.
    set (a' := kf_run [CPredict _ _ _ _; _] a) in *.
    set (b' := kf_run [CPredictSS _ _; _] b) in *. clearbody a' b'.
    rewrite ?a1, ?a2, ?a3, ?a4, ?a6, ?a5, ?a8 in q1.
    rewrite ?a1, ?a2, ?a3, ?a4, ?a6, ?a5, ?a8 in q2.
    rewrite ?a1, ?a2, ?a3, ?a4, ?a6, ?a5, ?a8 in q3.
    rewrite ?a1, ?a2, ?a3, ?a4, ?a6, ?a5, ?a8 in q4.
    rewrite ?b1, ?b2, ?b3, ?b4, ?b5 in r1.
    rewrite ?b1, ?b2, ?b3, ?b4, ?b5 in r4.
    assert (qP : kf_P a' = kf_P s) by (transitivity (joseph
     (madd (mscale (kf_alpha_sq s) (mdot (mdot (kf_F s) (kf_P s)) (mtr (kf_F s)))) (kf_Q s))
     (mdot (mdot (madd (mscale (kf_alpha_sq s) (mdot (mdot (kf_F s) (kf_P s)) (mtr (kf_F s)))) (kf_Q s)) (mtr (kf_H s))) SI)
       (kf_H s) (kf_R s)); [exact q2 | symmetry; exact p2]).
    assert (qK : kf_K a' = kf_K s) by congruence.
    assert (qx : kf_x b' = kf_x a') by (rewrite q1, r1, p3; reflexivity).
    destruct (IH a' b') as (g1&g2&g3&g4&g5&g6); try congruence.
    repeat split; try assumption; apply g6; right; split; congruence.
Qed.
Print Assumptions C16_steady_state.

(** F = H = 1, Q = 1, R = 2: P = 1 is a fixed point with gain 1/2. *)
Definition ss_kf : kf QO 1 1 1 :=
  @mkKF QO 1 1 1 [[0%Q]] [[1%Q]] [[1%Q]] None [[1%Q]] [[1%Q]] [[2%Q]] 1%Q [[0%Q]]
    (@z_some QO 1 [[0%Q]]) [[(1#2)%Q]] [[0%Q]] [[0%Q]] [[0%Q]] [[0%Q]] [[0%Q]] [[0%Q]] [[0%Q]] None None None
    (l_inv1 QS).
Example C16_example :
  let cycle := [CPredict (Some (ex_z 0)) None None None; CUpdate (Some (ex_z 3)) None None] in
  all_ok cycle ss_kf /\ kf_P (kf_run cycle ss_kf) = kf_P ss_kf /\ kf_K (kf_run cycle ss_kf) = kf_K ss_kf.
Proof. vm_compute. repeat split. Qed.
