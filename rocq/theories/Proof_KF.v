(** * KalmanFilter lemmas valid for any arithmetic. *)
From Coq Require Import List Arith Bool Lia.
From Verif Require Import Ops Model_KF Spec_KF.
Import ListNotations.

(** Run a method on an explicit object. *)
Ltac kf_compute :=
  cbv beta iota zeta delta [kf_step kf_predict kf_update kf_predict_steadystate kf_update_steadystate
    kf_update_correlated kf_update_sequential kf_log_likelihood kf_likelihood kf_mahalanobis kf_set_alpha
    clear_caches skip_update fst snd option_map negb
    kf_x kf_P kf_Q kf_B kf_F kf_H kf_R kf_alpha_sq kf_M kf_z kf_K kf_y kf_S kf_SI kf_x_prior kf_P_prior kf_x_post kf_P_post kf_loglik kf_lik kf_mahal kf_inv
    set_kf_x set_kf_P set_kf_Q set_kf_B set_kf_F set_kf_H set_kf_R set_kf_alpha_sq set_kf_M set_kf_z set_kf_K set_kf_y set_kf_S set_kf_SI set_kf_x_prior set_kf_P_prior set_kf_x_post set_kf_P_post set_kf_loglik set_kf_lik set_kf_mahal set_kf_inv].

Section LawFree.
Variable o : nops.
Variables n m l : nat.
Notation kf := (kf o n m l).
Notation kf_call := (kf_call o n m l).

Lemma run_app cs1 cs2 (s : kf) : kf_run (cs1 ++ cs2) s = kf_run cs2 (kf_run cs1 s).
Proof. apply fold_left_app. Qed.

Lemma run_one c (s : kf) : kf_run [c] s = fst (kf_step c s).
Proof. reflexivity. Qed.

Ltac opened :=
  unfold kf_step, kf_update, kf_update_correlated, kf_update_sequential, kf_update_steadystate,
    kf_likelihood, kf_log_likelihood, kf_mahalanobis, kf_set_alpha, skip_update, clear_caches in *;
  simpl in *.
Ltac cases :=
  repeat (match goal with
  | |- context [match ?z with None => _ | Some _ => _ end] => destruct z eqn:?; simpl in *
  | |- context [if ?b then _ else _] => destruct b eqn:?; simpl in *
  end).

(** No call changes the configuration attributes (alpha only by its setter). *)
Lemma step_config c (s : kf) :
  let s' := fst (kf_step c s) in
  kf_F s' = kf_F s /\ kf_Q s' = kf_Q s /\ kf_B s' = kf_B s /\ kf_H s' = kf_H s /\
  kf_R s' = kf_R s /\ kf_M s' = kf_M s /\ kf_inv s' = kf_inv s.
Proof.
  destruct c; simpl; opened; cases; repeat split; reflexivity.
Qed.

Lemma run_config cs (s : kf) :
  let s' := kf_run cs s in
  kf_F s' = kf_F s /\ kf_Q s' = kf_Q s /\ kf_B s' = kf_B s /\ kf_H s' = kf_H s /\
  kf_R s' = kf_R s /\ kf_M s' = kf_M s /\ kf_inv s' = kf_inv s.
Proof.
  revert s; induction cs as [|c cs IH]; intros s; simpl; [repeat split|].
  destruct (IH (fst (kf_step c s))) as (?&?&?&?&?&?&?).
  destruct (step_config c s) as (?&?&?&?&?&?&?).
  simpl in *. repeat split; congruence.
Qed.

Lemma step_not_predict_prior c (s : kf) : is_predict c = false ->
  kf_x_prior (fst (kf_step c s)) = kf_x_prior s /\ kf_P_prior (fst (kf_step c s)) = kf_P_prior s.
Proof.
  destruct c; simpl; intros Hc; try discriminate; opened; cases; split; reflexivity.
Qed.

Lemma step_not_update_post c (s : kf) : is_update c = false ->
  kf_x_post (fst (kf_step c s)) = kf_x_post s /\ kf_P_post (fst (kf_step c s)) = kf_P_post s.
Proof.
  destruct c; simpl; intros Hc; try discriminate; opened; cases; split; reflexivity.
Qed.

Lemma step_failed c (s : kf) e : snd (kf_step c s) = Some e ->
  let s' := fst (kf_step c s) in
  kf_x s' = kf_x s /\ kf_P s' = kf_P s /\ kf_x_prior s' = kf_x_prior s /\
  kf_P_prior s' = kf_P_prior s /\ kf_x_post s' = kf_x_post s /\ kf_P_post s' = kf_P_post s /\
  kf_K s' = kf_K s /\ kf_SI s' = kf_SI s /\ kf_z s' = kf_z s.
Proof.
  destruct c; simpl; opened; cases; intros He; try discriminate; repeat split; reflexivity.
Qed.

Lemma step_predict_prior c (s : kf) : is_predict c = true ->
  kf_x_prior (fst (kf_step c s)) = kf_x (fst (kf_step c s)) /\
  kf_P_prior (fst (kf_step c s)) = kf_P (fst (kf_step c s)).
Proof. destruct c; simpl; intros Hc; try discriminate; split; reflexivity. Qed.

Lemma step_update_post c (s : kf) : is_update c = true -> snd (kf_step c s) = None ->
  kf_x_post (fst (kf_step c s)) = kf_x (fst (kf_step c s)) /\
  kf_P_post (fst (kf_step c s)) = kf_P (fst (kf_step c s)).
Proof.
  destruct c; simpl; intros Hc; try discriminate; opened; cases; intros; try discriminate;
    split; reflexivity.
Qed.

Lemma run_prior_const cs (s : kf) : (forall c, In c cs -> is_predict c = false) ->
  kf_x_prior (kf_run cs s) = kf_x_prior s /\ kf_P_prior (kf_run cs s) = kf_P_prior s.
Proof.
  revert s; induction cs as [|c cs IH]; intros s Hc; [split; reflexivity|].
  simpl. destruct (IH (fst (kf_step c s))) as [H1 H2].
  { intros c' Hin; apply Hc; right; exact Hin. }
  destruct (step_not_predict_prior c s) as [H3 H4]; [apply Hc; left; reflexivity|].
  split; congruence.
Qed.

Lemma run_post_const cs (s : kf) : all_updates_fail cs s ->
  kf_x_post (kf_run cs s) = kf_x_post s /\ kf_P_post (kf_run cs s) = kf_P_post s.
Proof.
  revert s; induction cs as [|c cs IH]; intros s; [split; reflexivity|].
  simpl. intros [Hc Hcs]. destruct (IH _ Hcs) as [H1 H2].
  assert (H3 : kf_x_post (fst (kf_step c s)) = kf_x_post s /\
               kf_P_post (fst (kf_step c s)) = kf_P_post s).
  { destruct (is_update c) eqn:Hu.
    - destruct (snd (kf_step c s)) as [e|] eqn:He; [|exfalso; apply Hc; auto].
      pose proof (step_failed c s e He) as HH; simpl in HH; tauto.
    - apply step_not_update_post; exact Hu. }
  destruct H3; split; congruence.
Qed.

Lemma batch_step_run uf r (s : kf) :
  match batch_step uf r s with
  | (s', Ok b) =>
      s' = kf_run (row_calls uf r) s /\
      (let s1 := fst (kf_step (hd CMahal (row_calls uf r)) s) in
       let '(sp, su) := if uf then (s', s1) else (s1, s') in
       b = mkBrow (kf_x su) (kf_P su) (kf_x sp) (kf_P sp))
  | (s', Err e) => exists s0, snd (kf_step (CUpdate (r_z r) (r_R r) (r_H r)) s0) = Some e /\
                   s' = fst (kf_step (CUpdate (r_z r) (r_R r) (r_H r)) s0)
  end.
Proof.
  unfold batch_step; destruct uf.
  - destruct (kf_update (r_z r) (r_R r) (r_H r) s) as [s1 [e|]] eqn:E.
    + exists s; simpl; rewrite E; auto.
    + simpl; rewrite E; simpl; auto.
  - destruct (kf_update (r_z r) (r_R r) (r_H r) (kf_predict (r_u r) (r_B r) (r_F r) (r_Q r) s))
      as [s1 [e|]] eqn:E.
    + exists (kf_predict (r_u r) (r_B r) (r_F r) (r_Q r) s); simpl; rewrite E; auto.
    + simpl; rewrite E; simpl; auto.
Qed.

Lemma batch_loop_app uf r1 r2 (s : kf) :
  batch_loop uf (r1 ++ r2) s =
  match batch_loop uf r1 s with
  | (s1, Ok b1) =>
      match batch_loop uf r2 s1 with
      | (s2, Ok b2) => (s2, Ok (b1 ++ b2))
      | (s2, Err e) => (s2, Err e)
      end
  | (s1, Err e) => (s1, Err e)
  end.
Proof.
  revert s; induction r1 as [|r r1 IH]; intros s; simpl.
  - destruct (batch_loop uf r2 s) as [? [?|?]]; reflexivity.
  - destruct (batch_step uf r s) as [s1 [b|e]]; [|reflexivity].
    rewrite IH. destruct (batch_loop uf r1 s1) as [s2 [b1|e]]; [|reflexivity].
    destruct (batch_loop uf r2 s2) as [s3 [b2|e]]; reflexivity.
Qed.

Lemma batch_loop_run uf rows (s s' : kf) bs :
  batch_loop uf rows s = (s', Ok bs) ->
  s' = kf_run (flat_map (row_calls uf) rows) s /\ length bs = length rows /\
  forall k b, nth_error bs k = Some b ->
    exists r, nth_error rows k = Some r /\
    let before := kf_run (flat_map (row_calls uf) (firstn k rows)) s in
    let mid := kf_run (firstn 1 (row_calls uf r)) before in
    let after := kf_run (row_calls uf r) before in
    let '(sp, su) := if uf then (after, mid) else (mid, after) in
    b = mkBrow (kf_x su) (kf_P su) (kf_x sp) (kf_P sp).
Proof.
  revert s s' bs; induction rows as [|r rows IH]; intros s s' bs; simpl.
  - intros E; injection E as <- <-. repeat split; auto. intros [|k] b; discriminate.
  - pose proof (batch_step_run uf r s) as Hs.
    destruct (batch_step uf r s) as [s1 [b1|e]]; [|discriminate].
    destruct Hs as [-> Hb].
    destruct (batch_loop uf rows (kf_run (row_calls uf r) s)) as [s2 [b2|e]] eqn:E; [|discriminate].
    intros E'; injection E' as <- <-.
    destruct (IH _ _ _ E) as (-> & Hl & Hk).
    rewrite run_app. repeat split; [simpl; congruence|].
    intros [|k] b Hn; simpl in Hn.
    + injection Hn as <-. exists r; split; [reflexivity|]. simpl.
      destruct uf; simpl in Hb |- *; exact Hb.
    + destruct (Hk k b Hn) as (r' & Hr & Hb'). exists r'; split; [exact Hr|].
      cbn [firstn flat_map]. rewrite run_app. exact Hb'.
Qed.

Lemma zip_rows_length zs Fs Qs Hs Rs Bs us :
  length (@zip_rows o n m l zs Fs Qs Hs Rs Bs us) =
  min (length zs) (min (length Fs) (min (length Qs) (min (length Hs)
    (min (length Rs) (min (length Bs) (length us)))))).
Proof.
  revert Fs Qs Hs Rs Bs us; induction zs as [|z zs IH]; intros [|F Fs] [|Q Qs] [|H Hs] [|R Rs] [|B Bs] [|u us];
    simpl; try lia. rewrite IH; lia.
Qed.

Lemma same_cov_step c d (a b : kf) : same_shape c d -> same_cov a b ->
  same_cov (fst (kf_step c a)) (fst (kf_step d b)) /\
  snd (kf_step c a) = snd (kf_step d b).
Proof.
  intros Hc (h1&h2&h3&h4&h5&h6&h7&h8&h9&h10&h11&h12&h13).
  destruct c, d; simpl in Hc; try contradiction.
  - destruct Hc as [-> ->]; simpl; unfold same_cov; simpl.
    repeat split; congruence.
  - destruct Hc as (Hz & -> & ->).
    destruct z as [z|], z0 as [z0|]; try (exfalso; destruct Hz as [Hz1 Hz2]; (now discriminate Hz1) || (now discriminate Hz2)).
    + opened. rewrite h1, h4, h5, h13.
      destruct (kf_inv b _); simpl; unfold same_cov; simpl; rewrite ?h1; repeat split; congruence.
    + opened; unfold same_cov; simpl; repeat split; congruence.
  - simpl; unfold same_cov; simpl; repeat split; congruence.
  - simpl; destruct z, z0; unfold same_cov; simpl; repeat split; congruence.
  - destruct Hc as (Hz & -> & ->).
    destruct z as [z|], z0 as [z0|]; try (exfalso; destruct Hz as [Hz1 Hz2]; (now discriminate Hz1) || (now discriminate Hz2)).
    + opened. rewrite h1, h4, h5, h7, h13.
      destruct (kf_inv b _); simpl; unfold same_cov; simpl; rewrite ?h1; repeat split; congruence.
    + opened; unfold same_cov; simpl; repeat split; congruence.
  - subst v0; opened. destruct v as [v|]; [destruct (sltb _ _ _)|];
      unfold same_cov; simpl; repeat split; congruence.
Qed.

Lemma same_cov_run cs ds (a b : kf) : Forall2 same_shape cs ds -> same_cov a b ->
  same_cov (kf_run cs a) (kf_run ds b).
Proof.
  intros H; revert a b; induction H as [|c d cs ds Hc Hcs IH]; intros a b Hab; [exact Hab|].
  simpl. apply IH. apply same_cov_step; assumption.
Qed.


(** What each call does to the covariances. *)
Definition P_effect (c : kf_call) (s s' : kf) : Prop :=
  match c with
  | CPredict u B F Q =>
      kf_P s' = madd (mscale (kf_alpha_sq s) (mdot (mdot (opt_or (kf_F s) F) (kf_P s)) (mtr (opt_or (kf_F s) F))))
                     (sm_or (kf_Q s) Q)
      /\ kf_P_prior s' = kf_P s' /\ kf_P_post s' = kf_P_post s
  | CUpdate z R H =>
      kf_P_prior s' = kf_P_prior s /\
      ((kf_P s' = kf_P s /\ (kf_P_post s' = kf_P_post s \/ kf_P_post s' = kf_P s)) \/
       exists K, kf_P s' = joseph (kf_P s) K (opt_or (kf_H s) H) (sm_or (kf_R s) R)
                 /\ kf_P_post s' = kf_P s')
  | CUpdateSeq k linv start z R H =>
      kf_P_prior s' = kf_P_prior s /\
      ((kf_P s' = kf_P s /\ kf_P_post s' = kf_P_post s) \/
       exists K, start + k <= m /\
          kf_P s' = joseph (kf_P s) K (opt_or (mslice (kf_H s) start 0 k n) H)
                    (sm_or (mslice (kf_R s) start start k k) R)
          /\ kf_P_post s' = kf_P s')
  | CUpdateCorr (Some _) _ _ => True
  | CPredictSS _ _ => kf_P s' = kf_P s /\ kf_P_prior s' = kf_P s /\ kf_P_post s' = kf_P_post s
  | CUpdateCorr None _ _ | CUpdateSS _ =>
      kf_P s' = kf_P s /\ kf_P_prior s' = kf_P_prior s /\ kf_P_post s' = kf_P s
  | _ => kf_P s' = kf_P s /\ kf_P_prior s' = kf_P_prior s /\ kf_P_post s' = kf_P_post s
  end.

Lemma step_P_effect c (s : kf) : P_effect c s (fst (kf_step c s)).
Proof.
  destruct c; simpl; opened.
  - repeat split.
  - split; [destruct z; [destruct (kf_inv s _)|]; reflexivity|].
    destruct z; [destruct (kf_inv s _)|]; simpl.
    + right; eexists; split; reflexivity.
    + left; split; [|left]; reflexivity.
    + left; split; [|right]; reflexivity.
  - repeat split.
  - destruct z; repeat split.
  - destruct z; [exact I|]. repeat split.
  - destruct (start + k <=? m) eqn:Hk; simpl; [|split; [|left]; repeat split].
    destruct (if k =? 1 then _ else _) as [K|]; simpl; split; auto.
    right; exists K; split; [apply Nat.leb_le; exact Hk|split; reflexivity].
  - destruct (kf_loglik s); repeat split.
  - destruct (kf_lik s), (kf_loglik s); repeat split.
  - destruct (kf_mahal s); repeat split.
  - destruct v as [v|]; [destruct (sltb _ _ _)|]; repeat split.
Qed.

Lemma step_alpha c (s : kf) : kf_alpha_sq (fst (kf_step c s)) = kf_alpha_sq s \/
  exists a, c = CSetAlpha (Some a) /\ kf_alpha_sq (fst (kf_step c s)) = smul o a a.
Proof.
  destruct c; simpl; opened; cases; auto. right; eexists; split; reflexivity.
Qed.

(** The fields after a successful update. *)
Lemma update_ok_fields (z : M o m 1) R H SI (s : kf) :
  let Hm := opt_or (kf_H s) H in let Rm := sm_or (kf_R s) R in
  let Sm := madd (mdot Hm (mdot (kf_P s) (mtr Hm))) Rm in
  let s' := fst (kf_update (Some z) R H s) in
  let K := mdot (mdot (kf_P s) (mtr Hm)) SI in
  let y := msub z (mdot Hm (kf_x s)) in
  kf_inv s Sm = Some SI ->
  snd (kf_update (Some z) R H s) = None /\
  kf_x s' = madd (kf_x s) (mdot K y) /\ kf_P s' = joseph (kf_P s) K Hm Rm /\
  kf_K s' = K /\ kf_y s' = y /\ kf_S s' = Sm /\ kf_SI s' = SI.
Proof. intros Hm Rm Sm s' K y E; subst s'; opened; fold Hm Rm Sm; rewrite E; simpl; repeat split. Qed.

Lemma update_fails (z : M o m 1) R H (s : kf) :
  let Hm := opt_or (kf_H s) H in let Rm := sm_or (kf_R s) R in
  kf_inv s (madd (mdot Hm (mdot (kf_P s) (mtr Hm))) Rm) = None ->
  snd (kf_update (Some z) R H s) = Some LinAlgError.
Proof. intros Hm Rm E; opened; fold Hm Rm; rewrite E; reflexivity. Qed.

(** The fields after a successful update_correlated. *)
Lemma corr_ok_fields (z : M o m 1) R H SI (s : kf) :
  let Hm := opt_or (kf_H s) H in let Rm := sm_or (kf_R s) R in
  let PHT := mdot (kf_P s) (mtr Hm) in
  let Sm := madd (madd (madd (mdot Hm PHT) (mdot Hm (kf_M s))) (mdot (mtr (kf_M s)) (mtr Hm))) Rm in
  let s' := fst (kf_update_correlated (Some z) R H s) in
  let K := mdot (madd PHT (kf_M s)) SI in
  let y := msub z (mdot Hm (kf_x s)) in
  kf_inv s Sm = Some SI ->
  snd (kf_update_correlated (Some z) R H s) = None /\
  kf_x s' = madd (kf_x s) (mdot K y) /\
  kf_P s' = msub (kf_P s) (mdot K (madd (mdot Hm (kf_P s)) (mtr (kf_M s)))) /\
  kf_K s' = K /\ kf_y s' = y /\ kf_S s' = Sm /\ kf_SI s' = SI.
Proof.
  intros Hm Rm PHT Sm s' K y E; subst s'; opened; fold Hm Rm PHT Sm; rewrite E; simpl; repeat split.
Qed.

(** The fields after a successful update_sequential. *)
Lemma seq_ok_fields k linv start (z : M o k 1) R H K (s : kf) : start + k <= m ->
  let Hm := opt_or (mslice (kf_H s) start 0 k n) H in
  let Rm := sm_or (mslice (kf_R s) start start k k) R in
  let PHT := mdot (kf_P s) (mtr Hm) in
  let Sm := madd (mdot Hm PHT) Rm in
  let s' := fst (kf_update_sequential linv start z R H s) in
  let y := msub z (mdot Hm (kf_x s)) in
  (if k =? 1 then Some (mscale (sdiv o (s1 o) (mget Sm 0 0)) PHT)
   else option_map (fun SI => mdot PHT SI) (linv Sm)) = Some K ->
  snd (kf_update_sequential linv start z R H s) = None /\
  kf_x s' = madd (kf_x s) (mdot K y) /\ kf_P s' = joseph (kf_P s) K Hm Rm.
Proof.
  intros Hk Hm Rm PHT Sm s' y E; subst s'; opened.
  apply Nat.leb_le in Hk; rewrite Hk; simpl.
  fold Hm Rm PHT Sm; rewrite E; simpl; repeat split.
Qed.

Lemma step_updateE z R H (s : kf) : kf_step (CUpdate z R H) s = kf_update z R H s.
Proof. reflexivity. Qed.
Lemma step_predictE u B F Q (s : kf) : kf_step (CPredict u B F Q) s = (kf_predict u B F Q s, None).
Proof. reflexivity. Qed.

Lemma run_cons_ok c cs (s s1 : kf) : kf_step c s = (s1, None) ->
  kf_run (c :: cs) s = kf_run cs s1 /\ (all_ok cs s1 -> all_ok (c :: cs) s).
Proof. intros E; simpl; rewrite E; simpl; split; [reflexivity|intros; split; auto]. Qed.

Lemma step_inv c (s s1 : kf) e : kf_step c s = (s1, e) -> kf_inv s1 = kf_inv s.
Proof. intros E; destruct (step_config c s) as (_&_&_&_&_&_&H). rewrite E in H; exact H. Qed.

(** One predict; update cycle. *)
Lemma cycle_fields (z : M o m 1) (u : M o l 1) SI (s : kf) :
  let Pp := madd (mscale (kf_alpha_sq s) (mdot (mdot (kf_F s) (kf_P s)) (mtr (kf_F s)))) (kf_Q s) in
  let xp := apply_control (kf_F s) (kf_x s) (B_or (kf_B s) None) (Some u) in
  let Sm := madd (mdot (kf_H s) (mdot Pp (mtr (kf_H s)))) (kf_R s) in
  let s' := kf_run [CPredict (Some u) None None None; CUpdate (Some z) None None] s in
  let K := mdot (mdot Pp (mtr (kf_H s))) SI in
  let y := msub z (mdot (kf_H s) xp) in
  kf_inv s Sm = Some SI ->
  kf_x s' = madd xp (mdot K y) /\ kf_P s' = joseph Pp K (kf_H s) (kf_R s) /\
  kf_K s' = K /\ kf_y s' = y.
Proof.
  intros Pp xp Sm s' K y E.
  destruct (update_ok_fields z None None SI (kf_predict (Some u) None None None s) E) as (_&h1&h2&h3&h4&_).
  unfold s'. unfold kf_run; cbn [fold_left]. rewrite step_predictE; cbn [fst]. rewrite step_updateE.
  rewrite h1, h2, h3, h4. repeat split.
Qed.

Lemma cycle_ok (z : M o m 1) (u : M o l 1) (s : kf) :
  all_ok [CPredict (Some u) None None None; CUpdate (Some z) None None] s ->
  let Pp := madd (mscale (kf_alpha_sq s) (mdot (mdot (kf_F s) (kf_P s)) (mtr (kf_F s)))) (kf_Q s) in
  exists SI, kf_inv s (madd (mdot (kf_H s) (mdot Pp (mtr (kf_H s)))) (kf_R s)) = Some SI.
Proof.
  intros (_ & Hok & _) Pp. rewrite step_predictE in Hok; cbn [fst] in Hok. rewrite step_updateE in Hok.
  destruct (kf_inv s _) eqn:E; [eexists; reflexivity|exfalso].
  pose proof (update_fails z None None (kf_predict (Some u) None None None s) E) as H. congruence.
Qed.

Lemma ss_cycle_fields (z : M o m 1) (u : M o l 1) (s : kf) :
  let xp := apply_control (kf_F s) (kf_x s) (B_or (kf_B s) None) (Some u) in
  let s' := kf_run [CPredictSS u None; CUpdateSS (Some z)] s in
  let y := msub z (mdot (kf_H s) xp) in
  kf_x s' = madd xp (mdot (kf_K s) y) /\ kf_P s' = kf_P s /\ kf_K s' = kf_K s /\ kf_y s' = y /\
  kf_x_post s' = kf_x s'.
Proof.
  destruct s; unfold kf_run; cbn [fold_left].
  set (xp := apply_control _ _ _ _). kf_compute. repeat split.
Qed.

Lemma cycle_alpha (z : M o m 1) (u : M o l 1) (s : kf) :
  kf_alpha_sq (kf_run [CPredict (Some u) None None None; CUpdate (Some z) None None] s) = kf_alpha_sq s.
Proof.
  unfold kf_run; cbn [fold_left].
  destruct (step_alpha (CUpdate (Some z) None None) (fst (kf_step (CPredict (Some u) None None None) s)))
    as [->|(a & H & _)]; [|discriminate].
  destruct (step_alpha (CPredict (Some u) None None None) s) as [->|(a & H & _)]; [reflexivity|discriminate].
Qed.

End LawFree.
