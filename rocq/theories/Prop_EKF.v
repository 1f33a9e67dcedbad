(** * ExtendedKalmanFilter and FadingKalmanFilter: C22, C23, C52 (caches). *)
From Coq Require Import List Arith Bool ZArith Lia QArith Floats.
From Verif Require Import Ops ListOps Model_KF Model_EKF Spec_Lin Proof_KF.
Import ListNotations.
Set Implicit Arguments.
Unset Strict Implicit.
Local Open Scope nat_scope.
Local Open Scope np_scope.

Section Laws.
Variable o : nops.
Variables n m l : nat.
Notation kf := (kf o n m l).
Hypothesis add0 : forall x : M o n 1, x + mzeros n 1 = x.

Lemma move_control F Q R inv B u (x : M o n 1) :
  ek_move (@mkEC o n m l Q B F R inv) u x = apply_control F x B u.
Proof. unfold ek_move, apply_control; simpl. destruct B, u; auto. Qed.

Lemma kf_ek_update z R H (k : kf) (s : ek_st o n m) (c : ek_cfg o n m l) :
  kf_ek k s -> kf_inv k = ec_inv c -> ec_R c = R ->
  let a := kf_update z (Some (Mat R)) (Some H) k in
  let b := ek_update z (fun _ => H) (fun x => H @ x) None msub c s in
  let b' := fk_update z None H c s in
  kf_ek (fst a) (fst b) /\ snd a = snd b /\ kf_ek (fst a) (fst b') /\ snd a = snd b' /\
  kf_alpha_sq (fst a) = kf_alpha_sq k /\ kf_B (fst a) = kf_B k /\ kf_inv (fst a) = kf_inv k.
Proof.
  intros (h1&h2&h3&h4&h5&h6&h7&h8) hi <-.
  unfold kf_update, ek_update, fk_update, ek_correct, ek_skip, skip_update, clear_caches, kf_ek.
  destruct k, s, c. cbn in *. subst.
  destruct z as [z|]; [|cbn; repeat split].
  destruct (ec_inv _) as [SI|]; cbn; repeat split.
Qed.

Lemma kf_ek_predict F Q B u (k : kf) (s : ek_st o n m) R inv (a : sc o) :
  kf_ek k s -> kf_B k = None -> kf_alpha_sq k = a ->
  let k' := kf_predict u B (Some F) (Some (Mat Q)) k in
  kf_ek k' (fk_predict u a (mkEC Q B F R inv) s) /\
  ((forall A : M o n n, mscale a A = A) -> kf_ek k' (ek_predict u (mkEC Q B F R inv) s)) /\
  kf_alpha_sq k' = kf_alpha_sq k /\ kf_B k' = kf_B k /\ kf_inv k' = kf_inv k.
Proof.
  intros (h1&h2&h3&h4&h5&h6&h7&h8) hB ha.
  unfold kf_predict, ek_predict, fk_predict, kf_ek. rewrite !move_control.
  destruct k, s. cbn in *. subst. destruct B; cbn; (split; [repeat split|split; [intros E; rewrite E; repeat split|repeat split]]).
Qed.

End Laws.

(** ** C22.  EKF with a linear measurement function and its constant Jacobian follows the
    KalmanFilter through any history, exceptions included, in any
    arithmetic where [1 * A = A] and [x + 0 = x]. *)
Theorem C22_ekf_is_kf_on_linear : forall (o : nops) (n m l : nat) (inv : M o m m -> option (M o m m)) dQ dF dR
    (cs : list (lin_call o n m l)) (k : kf o n m l) (s : ek_st o n m),
  (forall x : M o n 1, x + mzeros n 1 = x) -> (forall A : M o n n, mscale (s1 o) A = A) ->
  kf_ek k s -> kf_B k = None -> kf_alpha_sq k = s1 o -> kf_inv k = inv ->
  let k' := kf_run (map (@kf_of o n m l) cs) k in
  let s' := ek_run (map (ek_of inv dQ dF dR) cs) s in
  kf_ek k' s' /\
  forall c, snd (kf_step (kf_of c) k') = snd (ek_step (ek_of inv dQ dF dR c) s').
Proof.
  intros o n m l inv dQ dF dR cs k s add0 sc1 R0 B0 a0 i0.
  assert (St : forall c (k : kf o n m l) s, kf_ek k s -> kf_B k = None -> kf_alpha_sq k = s1 o -> kf_inv k = inv ->
     let k' := fst (kf_step (kf_of c) k) in
     kf_ek k' (fst (ek_step (ek_of inv dQ dF dR c) s)) /\ kf_B k' = None /\ kf_alpha_sq k' = s1 o /\ kf_inv k' = inv /\
     snd (kf_step (kf_of c) k) = snd (ek_step (ek_of inv dQ dF dR c) s)).
  { clear - add0 sc1. intros c k s R0 B0 a0 i0. destruct c as [F Q B u|z R H]; cbn [kf_of ek_of kf_step ek_step fst snd].
    - destruct (kf_ek_predict add0 F Q B u dR inv R0 B0 a0) as (_ & h & h1 & h2 & h3).
      split; [exact (h sc1)|]. rewrite h1, h2, h3. auto.
    - destruct (kf_ek_update z (R := R) H (c := mkEC dQ None dF R inv) R0 i0 eq_refl) as (h1 & h2 & _ & _ & h3 & h4 & h5).
      split; [exact h1|]. rewrite h3, h4, h5. auto. }
  revert k s R0 B0 a0 i0. induction cs as [|c cs IH]; intros k s R0 B0 a0 i0.
  - cbn [map kf_run ek_run fold_left]. split; [exact R0|]. intros c. apply (St c k s); auto.
  - cbn [map]. change (kf_run (kf_of c :: map (@kf_of o n m l) cs) k) with (kf_run (map (@kf_of o n m l) cs) (fst (kf_step (kf_of c) k))).
    change (ek_run (ek_of inv dQ dF dR c :: map (ek_of inv dQ dF dR) cs) s)
      with (ek_run (map (ek_of inv dQ dF dR) cs) (fst (ek_step (ek_of inv dQ dF dR c) s))).
    destruct (St c k s R0 B0 a0 i0) as (h1 & h2 & h3 & h4 & _). apply IH; assumption.
Qed.
Print Assumptions C22_ekf_is_kf_on_linear.

(** predict_update against predict followed by update, for any measurement function,
    in any arithmetic: same result and same exception when the Jacobian is the same
    at the state before and after the prediction; but the stored prior is the
    state from before the prediction; [z = None] never succeeds. *)
Theorem C22_predict_update : forall (o : nops) (n m l : nat) (c : ek_cfg o n m l) z hjac hx u (s : ek_st o n m),
  let a := ek_predict_update (Some z) hjac hx u c s in
  let p := ek_predict u c s in
  let b := ek_update (Some z) hjac hx None msub c p in
  (hjac (e_x s) = hjac (e_x p) ->
     snd a = snd b /\
     (snd a = None ->
      e_x (fst a) = e_x (fst b) /\ e_P (fst a) = e_P (fst b) /\ e_y (fst a) = e_y (fst b) /\
      e_S (fst a) = e_S (fst b) /\ e_SI (fst a) = e_SI (fst b) /\ e_K (fst a) = e_K (fst b) /\ e_z (fst a) = e_z (fst b) /\
      e_x_post (fst a) = e_x_post (fst b) /\ e_P_post (fst a) = e_P_post (fst b))) /\
  (e_x_prior (fst a) = e_x s /\ e_P_prior (fst a) = e_P s) /\
  (e_x_prior (fst b) = e_x p /\ e_P_prior (fst b) = e_P p) /\
  (snd (ek_predict_update None hjac hx u c s) <> None /\
   e_x (fst (ek_predict_update None hjac hx u c s)) = e_x s /\
   e_P (fst (ek_predict_update None hjac hx u c s)) = e_P s).
Proof.
  intros o n m l c z hjac hx u s. cbv zeta.
  unfold ek_predict_update, ek_update, ek_predict, ek_correct, sm_or. cbn.
  repeat split.
  - rewrite <- H. destruct (ec_inv c _); reflexivity.
  - rewrite <- H in *. destruct (ec_inv c _); [reflexivity|discriminate].
  - rewrite <- H in *. destruct (ec_inv c _); [reflexivity|discriminate].
  - rewrite <- H in *. destruct (ec_inv c _); [reflexivity|discriminate].
  - rewrite <- H in *. destruct (ec_inv c _); [reflexivity|discriminate].
  - rewrite <- H in *. destruct (ec_inv c _); [reflexivity|discriminate].
  - rewrite <- H in *. destruct (ec_inv c _); [reflexivity|discriminate].
  - rewrite <- H in *. destruct (ec_inv c _); [reflexivity|discriminate].
  - rewrite <- H in *. destruct (ec_inv c _); [reflexivity|discriminate].
  - rewrite <- H in *. destruct (ec_inv c _); [reflexivity|discriminate].
  - destruct (ec_inv c _); reflexivity.
  - destruct (ec_inv c _); reflexivity.
  - destruct (ec_inv c (hjac (ek_move _ _ _) @ _ + _)); reflexivity.
  - destruct (ec_inv c (hjac (ek_move _ _ _) @ _ + _)); reflexivity.
  - destruct (ec_inv c _); discriminate.
  - destruct (ec_inv c _); reflexivity.
  - destruct (ec_inv c _); reflexivity.
Qed.
Print Assumptions C22_predict_update.

Definition q1 (q : Q) : M QO 1 1 := [[q]].
Definition ex_cfg : ek_cfg QO 1 1 1 := mkEC (q1 1) None (q1 2) (q1 1) (l_inv1 QS).
Definition ex_s : ek_st QO 1 1 := mkES (q1 1) (q1 1) None None (q1 0) (q1 0) (q1 0) (q1 1) (q1 1) (q1 1) (q1 1) None None None.

(** With a Jacobian that depends on the state (here h(x) = x^2) predict_update is not
    predict followed by update, and x_prior is not the prediction. *)
Theorem C22_predict_update_refuted :
  let hjac := fun x : M QO 1 1 => q1 (2 * mget x 0 0) in
  let hx := fun x : M QO 1 1 => q1 (mget x 0 0 * mget x 0 0) in
  let a := fst (ek_predict_update (Some (q1 5)) hjac hx None ex_cfg ex_s) in
  let b := fst (ek_update (Some (q1 5)) hjac hx None msub ex_cfg (ek_predict None ex_cfg ex_s)) in
  e_x a = q1 (52#21) /\ e_x b = q1 (182#81) /\ e_x_prior a = q1 1 /\ e_x_prior b = q1 2.
Proof. repeat split; vm_compute; reflexivity. Qed.
Print Assumptions C22_predict_update_refuted.

Example C22_example :
  let cs := [LPredict (q1 2) (q1 1) None None; @LUpdate QO 1 1 1 (Some (q1 5)) (q1 1) (q1 1); LUpdate None (q1 1) (q1 1)] in
  e_x (ek_run (map (ek_of (l_inv1 QS : M QO 1 1 -> _) (q1 0) (q1 0) (q1 0)) cs) ex_s) = q1 (9#2) /\
  kf_x (kf_run (map (@kf_of QO 1 1 1) cs)
     (set_kf_x (q1 1) (set_kf_P (q1 1) (@kf_init QO 1 1 1 (1#1024)%Q (l_inv1 QS))))) = q1 (9#2).
Proof. split; vm_compute; reflexivity. Qed.

(** ** C23.  FadingKalmanFilter is KalmanFilter with the same alpha, over any history, in
    any arithmetic where [x + 0 = x] (used only when no control is given). *)
Theorem C23_fading_is_kf : forall (o : nops) (n m l : nat) (inv : M o m m -> option (M o m m)) dQ dF dR (a : sc o)
    (cs : list (lin_call o n m l)) (k : kf o n m l) (s : ek_st o n m),
  (forall x : M o n 1, x + mzeros n 1 = x) ->
  kf_ek k s -> kf_B k = None -> kf_alpha_sq k = a -> kf_inv k = inv ->
  let k' := kf_run (map (@kf_of o n m l) cs) k in
  let s' := fk_run (map (fk_of inv dQ dF dR a) cs) s in
  kf_ek k' s' /\
  forall c, snd (kf_step (kf_of c) k') = snd (fk_step (fk_of inv dQ dF dR a c) s').
Proof.
  intros o n m l inv dQ dF dR a cs k s add0 R0 B0 a0 i0.
  assert (St : forall c (k : kf o n m l) s, kf_ek k s -> kf_B k = None -> kf_alpha_sq k = a -> kf_inv k = inv ->
     let k' := fst (kf_step (kf_of c) k) in
     kf_ek k' (fst (fk_step (fk_of inv dQ dF dR a c) s)) /\ kf_B k' = None /\ kf_alpha_sq k' = a /\ kf_inv k' = inv /\
     snd (kf_step (kf_of c) k) = snd (fk_step (fk_of inv dQ dF dR a c) s)).
  { clear - add0. intros c k s R0 B0 a0 i0. destruct c as [F Q B u|z R H]; cbn [kf_of fk_of kf_step fk_step fst snd].
    - destruct (kf_ek_predict add0 F Q B u dR inv R0 B0 a0) as (h & _ & h1 & h2 & h3).
      split; [exact h|]. rewrite h1, h2, h3. auto.
    - destruct (kf_ek_update z (R := R) H (c := mkEC dQ None dF R inv) R0 i0 eq_refl) as (_ & _ & h1 & h2 & h3 & h4 & h5).
      split; [exact h1|]. rewrite h3, h4, h5. auto. }
  revert k s R0 B0 a0 i0. induction cs as [|c cs IH]; intros k s R0 B0 a0 i0.
  - cbn [map kf_run fk_run fold_left]. split; [exact R0|]. intros c. apply (St c k s); auto.
  - cbn [map]. change (kf_run (kf_of c :: map (@kf_of o n m l) cs) k) with (kf_run (map (@kf_of o n m l) cs) (fst (kf_step (kf_of c) k))).
    change (fk_run (fk_of inv dQ dF dR a c :: map (fk_of inv dQ dF dR a) cs) s)
      with (fk_run (map (fk_of inv dQ dF dR a) cs) (fst (fk_step (fk_of inv dQ dF dR a c) s))).
    destruct (St c k s R0 B0 a0 i0) as (h1 & h2 & h3 & h4 & _). apply IH; assumption.
Qed.
Print Assumptions C23_fading_is_kf.

(** alpha = 1 is the ordinary (extended, linear) filter's prediction. *)
Theorem C23_alpha_one : forall (o : nops) (n m l : nat) u (c : ek_cfg o n m l) s,
  (forall A : M o n n, mscale (s1 o) A = A) -> fk_predict u (s1 o) c s = ek_predict u c s.
Proof. intros o n m l u c s H. unfold fk_predict, ek_predict. rewrite H. reflexivity. Qed.
Print Assumptions C23_alpha_one.

(** The batch method is the loop of single calls (no exceptions: rows are the values after
    each call; with an exception the state is that of the failing call). *)
Theorem C23_batch_is_loop : forall (o : nops) (n m l : nat) a H uf (c : ek_cfg o n m l) zs s s' rows,
  fk_batch a H uf c zs s = (s', Ok rows) ->
  let calls := fun zR => if uf then [(c, FUpdate (fst zR) (snd zR) H); (c, FPredict None a)]
                               else [(c, @FPredict o n m l None a); (c, FUpdate (fst zR) (snd zR) H)] in
  s' = fk_run (flat_map calls zs) s /\ length rows = length zs /\
  forall j row, nth_error rows j = Some row ->
    let before := fk_run (flat_map calls (firstn j zs)) s in
    exists zR, nth_error zs j = Some zR /\
    let mid := fk_run (firstn 1 (calls zR)) before in
    let after := fk_run (calls zR) before in
    row = (if uf then ((e_x mid, e_P mid), (e_x after, e_P after))
           else ((e_x after, e_P after), (e_x mid, e_P mid))).
Proof.
  intros o n m l a H uf c zs. induction zs as [|[z R] zs IH]; intros s s' rows Hb calls; cbn [fk_batch] in Hb; revert Hb.
  { intros [= <- <-]. repeat split. intros [|j] row; discriminate. }
  destruct (fk_update z R H c _) as [s2 [e|]] eqn:E2; [discriminate|].
  destruct (fk_batch a H uf c zs _) as [s4 [rows'|e]] eqn:E4; [|discriminate].
  intros [= <- <-]. destruct (IH _ _ _ E4) as (h1 & h2 & h3).
  assert (Hc : (if uf then fk_predict None a c s2 else s2) = fk_run (calls (z, R)) s).
  { unfold calls; destruct uf; cbn [fk_run fold_left fk_step fst snd]; rewrite E2; reflexivity. }
  split; [|split; [cbn; f_equal; exact h2|]].
  - cbn [flat_map]. unfold fk_run. rewrite fold_left_app. fold (fk_run (calls (z, R)) s). rewrite <- Hc. exact h1.
  - intros [|j] row; cbn [nth_error].
    + intros [= <-]. exists (z, R). split; [reflexivity|]. unfold calls.
      destruct uf; cbn [firstn flat_map fk_run fold_left fk_step fst snd] in *; rewrite E2; reflexivity.
    + intros Hr. destruct (h3 j row Hr) as (zR & hz & hrow). exists zR. split; [exact hz|].
      cbn [firstn flat_map]. unfold fk_run at 1 2 3 4 5. 
      assert (Hs : fk_run (calls (z, R) ++ flat_map calls (firstn j zs)) s
                   = fk_run (flat_map calls (firstn j zs)) (if uf then fk_predict None a c s2 else s2)).
      { unfold fk_run. rewrite fold_left_app. fold (fk_run (calls (z, R)) s). rewrite <- Hc. reflexivity. }
      fold (fk_run (calls (z, R) ++ flat_map calls (firstn j zs)) s). rewrite Hs. exact hrow.
Qed.
Print Assumptions C23_batch_is_loop.

(** KalmanFilter.alpha: the setter raises for a non-scalar or a value less than 1 and
    changes nothing then; otherwise the getter returns what was set
    whenever sqrt undoes squaring for that value. *)
Theorem C23_alpha_setter : forall (o : nops) (n m l : nat) (v : option (sc o)) (s : kf o n m l),
  (snd (kf_set_alpha v s) = Some ValueError <-> match v with None => True | Some a => sltb o a (s1 o) = true end) /\
  (snd (kf_set_alpha v s) <> None -> fst (kf_set_alpha v s) = s) /\
  (forall a, v = Some a -> snd (kf_set_alpha v s) = None -> ssqrt o (smul o a a) = a -> kf_alpha (fst (kf_set_alpha v s)) = a).
Proof.
  intros o n m l [a|] s; unfold kf_set_alpha; [destruct (sltb o a (s1 o)) eqn:E|]; cbn; repeat split; try discriminate; auto; try congruence.
  - intros a' [= <-] _ h. exact h.
Qed.
Print Assumptions C23_alpha_setter.

(** In binary64 a NaN is not less than 1, so the setter accepts it and the next
    prediction's covariance is NaN. *)
Theorem C23_alpha_nan_refuted :
  let o := floatO (fun x => x) (fun x => x) in
  let s : kf o 1 1 1 := kf_init 1 1 1 (1%float : sc o) (fun _ => None) in
  let nan : sc o := (0 / 0)%float in
  snd (kf_set_alpha (Some nan) s) = None /\
  PrimFloat.eqb (mget (kf_P (kf_predict None None None None (fst (kf_set_alpha (Some nan) s)))) 0 0 : float)
                (mget (kf_P (kf_predict None None None None (fst (kf_set_alpha (Some nan) s)))) 0 0 : float) = false.
Proof. split; vm_compute; reflexivity. Qed.
Print Assumptions C23_alpha_nan_refuted.
