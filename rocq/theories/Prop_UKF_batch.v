(** * batch_filter of the unscented filter, failed updates and the arguments of predict (C07, C26). *)
From Coq Require Import List Arith Bool ZArith Lia QArith.
From Verif Require Import Ops ListOps Model_KF Model_UKF Model_CKF Prop_UKF_ex.
Import ListNotations.
Set Implicit Arguments.
Unset Strict Implicit.
Local Open Scope nat_scope.
Local Open Scope np_scope.

(** What a caller's own loop does: the calls in order, up to and including the first one that raises. *)
Fixpoint uk_calls o n m k (c : uk_cfg o n m k) (l : list (uk_call o n m)) (s : uk_st o n m k) : uk_st o n m k * option exn :=
  match l with
  | [] => (s, None)
  | a :: l => match uk_step c a s with (s, Some e) => (s, Some e) | (s, None) => uk_calls c l s end
  end.

(** The documented meaning of the arguments: epoch i predicts over dts[i] and updates with zs[i] and Rs[i]. *)
Definition epochs o n m (zs : list (option (M o 1 m))) (Rs : list (sm o m)) (dts : list (sc o)) : list (uk_call o n m) :=
  flat_map (fun t => [@UPredict o n m (Some (snd t)) None; @UUpdate o n m (fst (fst t)) (Some (snd (fst t))) None]) (combine (combine zs Rs) dts).
(** ... and without the optional lists. *)
Definition plain_epochs o n m (zs : list (option (M o 1 m))) : list (uk_call o n m) :=
  flat_map (fun z => [@UPredict o n m None None; @UUpdate o n m z None None]) zs.

Lemma uk_batch_spec : forall (o : nops) (n m k : nat) (c : uk_cfg o n m k) zs Rs dts s,
  let calls := epochs n zs Rs dts in
  let b := uk_batch zs Rs dts c s in
  fst b = fst (uk_calls c calls s) /\
  match snd (uk_calls c calls s) with
  | Some e => snd b = Err e
  | None => exists l, snd b = Ok l /\ length l = Nat.min (Nat.min (length zs) (length Rs)) (length dts) /\
      forall i d, i < length l ->
        let t := fst (uk_calls c (firstn (2 * (i + 1)) calls) s) in nth i l d = (u_x t, u_P t)
  end.
Proof.
  intros o n m k c. induction zs as [|z zs IH]; intros [|r Rs] [|dt dts] s calls b; subst calls b;
    try (cbn; split; [reflexivity|]; exists []; repeat split; cbn; try lia; intros; lia).
  unfold epochs. cbn [combine flat_map app uk_calls uk_batch uk_step fst snd].
  destruct (uk_predict (Some dt) None c s) as [s1 [e|]] eqn:E1; [split; reflexivity|].
  destruct (uk_update z (Some r) None c s1) as [s2 [e|]] eqn:E2; [split; reflexivity|].
  specialize (IH Rs dts s2). cbv zeta in IH. fold (epochs n zs Rs dts).
  destruct (uk_batch zs Rs dts c s2) as [s' rl]. cbn [fst snd] in IH |- *. destruct IH as [IH1 IH2].
  split; [exact IH1|]. destruct (snd (uk_calls c (epochs n zs Rs dts) s2)); [rewrite IH2; reflexivity|].
  destruct IH2 as (l & -> & hl & H). cbn [rmap rbind]. eexists; split; [reflexivity|]. split; [cbn [length]; rewrite hl; reflexivity|].
  intros [|i] d hi.
  - cbn [Nat.mul Nat.add firstn uk_calls uk_step nth]. rewrite E1, E2. reflexivity.
  - replace (2 * (S i + 1)) with (S (S (2 * (i + 1)))) by lia. cbn [firstn uk_calls uk_step nth]. rewrite E1, E2.
    apply H. cbn in hi. lia.
Qed.

(** ** C26: batch_filter.  For any arithmetic, sigma points, functions and lists whose first measurement is
    present: the filter ends in the state the caller's own loop of predict and update would leave, the same
    exception comes out, and otherwise row i holds x and P after epoch i; rows beyond the shortest of the three lists
    are zeros. *)
Theorem C26_batch_filter : forall (o : nops) (n m k : nat) (c : uk_cfg o n m k) z zs Rs dts s,
  let zs' := Some z :: zs in
  let calls := epochs n zs' Rs dts in
  let b := uk_batch_filter zs' (Some Rs) (Some dts) c s in
  fst b = fst (uk_calls c calls s) /\
  match snd (uk_calls c calls s) with
  | Some e => snd b = Err e
  | None => exists l, snd b = Ok l /\ length l = length zs' /\
      forall i d, i < length zs' ->
        let t := fst (uk_calls c (firstn (2 * (i + 1)) calls) s) in
        nth i l d = if (i <? length Rs) && (i <? length dts) then (u_x t, u_P t) else (mzeros 1 n, mzeros n n)
  end.
Proof.
  intros o n m k c z zs Rs dts s zs' calls b. subst b. unfold uk_batch_filter. cbn [uk_batch_check zs' opt_or].
  fold zs'. pose proof (uk_batch_spec c zs' Rs dts s) as H. cbv zeta in H. fold calls in H.
  destruct (uk_batch zs' Rs dts c s) as [s' rl]. cbn [fst snd] in H |- *. destruct H as [H1 H2]. split; [exact H1|].
  destruct (snd (uk_calls c calls s)); [rewrite H2; reflexivity|]. destruct H2 as (l & -> & hl & H).
  cbn [rmap rbind]. eexists; split; [reflexivity|]. change (S (length zs)) with (length zs'). split.
  - rewrite app_length, repeat_length. lia.
  - intros i d hi. destruct (i <? length Rs) eqn:e1; destruct (i <? length dts) eqn:e2; cbn [andb];
      rewrite ?Nat.ltb_lt, ?Nat.ltb_ge in e1; rewrite ?Nat.ltb_lt, ?Nat.ltb_ge in e2;
      try (rewrite app_nth2 by lia;
           rewrite (nth_indep _ d (mzeros 1 n, mzeros n n)) by (rewrite repeat_length; lia); apply nth_repeat).
    rewrite app_nth1 by lia. apply H. lia.
Qed.
Print Assumptions C26_batch_filter.

Lemma uk_calls_plain : forall (o : nops) (n m k : nat) (c : uk_cfg o n m k) zs s i,
  uk_calls c (firstn (2 * i) (epochs n zs (repeat (Mat (uc_R c)) (length zs)) (repeat (uc_dt c) (length zs)))) s =
  uk_calls c (firstn (2 * i) (plain_epochs n zs)) s.
Proof.
  intros o n m k c. induction zs as [|z zs IH]; intros s i; [reflexivity|].
  destruct i as [|i]; [reflexivity|]. replace (2 * S i) with (S (S (2 * i))) by lia.
  unfold epochs, plain_epochs. cbn [length repeat combine flat_map app firstn uk_calls uk_step fst snd].
  change (uk_predict (Some (uc_dt c)) None c s) with (uk_predict None None c s).
  destruct (uk_predict None None c s) as [s1 [e|]]; [reflexivity|].
  replace (uk_update z (Some (Mat (uc_R c))) None c s1) with (uk_update z None None c s1) by (destruct z; reflexivity).
  destruct (uk_update z None None c s1) as [s2 [e|]]; [reflexivity|]. apply IH.
Qed.

(** Without Rs and dts it is the loop of plain predict() and update(z): one row per measurement. *)
Theorem C26_batch_filter_defaults : forall (o : nops) (n m k : nat) (c : uk_cfg o n m k) z zs s,
  let zs' := Some z :: zs in
  let b := uk_batch_filter zs' None None c s in
  let calls := plain_epochs n zs' in
  fst b = fst (uk_calls c calls s) /\
  match snd (uk_calls c calls s) with
  | Some e => snd b = Err e
  | None => exists l, snd b = Ok l /\ length l = length zs' /\
      forall i d, i < length zs' ->
        let t := fst (uk_calls c (firstn (2 * (i + 1)) calls) s) in nth i l d = (u_x t, u_P t)
  end.
Proof.
  intros o n m k c z zs s zs' b calls.
  pose proof (C26_batch_filter c z zs (repeat (Mat (uc_R c)) (length zs')) (repeat (uc_dt c) (length zs')) s) as H.
  cbv zeta in H. fold zs' in H.
  assert (L : forall t : list (option (M o 1 m)), length (plain_epochs n t) = 2 * length t)
    by (induction t as [|a t IH]; [reflexivity|]; cbn [length]; unfold plain_epochs in *; cbn [flat_map app length]; rewrite IH; lia).
  assert (L' : forall t R q, length (epochs n t (repeat R (length t)) (repeat q (length t)) : list (uk_call o n m)) = 2 * length t).
  { intros t R q. induction t as [|a t IH]; [reflexivity|]. unfold epochs in *. cbn [length repeat combine flat_map app]. rewrite IH. lia. }
  assert (E : forall s, uk_calls c (epochs n zs' (repeat (Mat (uc_R c)) (length zs')) (repeat (uc_dt c) (length zs'))) s = uk_calls c calls s).
  { intros t. pose proof (uk_calls_plain c zs' t (length zs')) as e.
    rewrite <- (L' zs' (Mat (uc_R c)) (uc_dt c)) in e at 1. rewrite firstn_all in e. rewrite e.
    rewrite <- (L zs'). rewrite firstn_all. reflexivity. }
  rewrite E in H. change (uk_batch_filter zs' (Some (repeat (Mat (uc_R c)) (length zs'))) (Some (repeat (uc_dt c) (length zs'))) c s) with b in H.
  destruct H as [H1 H2]. split; [exact H1|]. destruct (snd (uk_calls c calls s)); [exact H2|].
  destruct H2 as (l & h1 & h2 & h3). exists l. split; [exact h1|]. split; [exact h2|]. intros i d hi t.
  rewrite (h3 i d hi). rewrite !repeat_length.
  assert (hb : (i <? length zs') = true) by (apply Nat.ltb_lt; exact hi). rewrite hb. cbn [andb].
  rewrite uk_calls_plain. reflexivity.
Qed.
Print Assumptions C26_batch_filter_defaults.

(** A missing measurement may come anywhere except first: the check on zs[0] raises, before any state changes,
    where the loop of predict and update would have raised nothing.  So does an empty list. *)
Theorem C26_batch_first_missing_refuted : forall (o : nops) (n m k : nat) (c : uk_cfg o n m k) zs Rs dts s,
  uk_batch_filter (None :: zs) Rs dts c s = (s, Err (if m =? 1 then AttributeError else TypeError)) /\
  uk_batch_filter [] Rs dts c s = (s, Err IndexError) /\
  forall sf sf', uk_process_sigmas (uc_dt c) None c s = Ok sf ->
    (let t := unscented_transform sf (uc_Wm c) (uc_Wc c) (Some (uc_Q c)) (uc_x_mean c) (uc_residual_x c) in
     pt_sigmas (uc_points c) (fst t) (Mat (snd t)) = Ok sf') ->
    snd (uk_calls c (plain_epochs n [None]) s) = None.
Proof.
  intros o n m k c zs Rs dts s. split; [reflexivity|]. split; [reflexivity|]. intros sf sf' e1 e2.
  unfold plain_epochs. cbn [flat_map app uk_calls uk_step]. unfold uk_predict. cbn [opt_or]. rewrite e1.
  destruct (unscented_transform _ _ _ _ _ _) as [x P]. cbv zeta in e2. cbn [fst snd] in e2. rewrite e2. reflexivity.
Qed.
Print Assumptions C26_batch_first_missing_refuted.

(** ** C07 for the unscented and cubature filters: an update that raises has replaced sigmas_h and S and nothing
    else (the likelihood caches included), so x, P, the posteriors and the next predict are as if the call had not been
    made; a predict that raises before its transform leaves everything. *)
Theorem C07_ukf_update_atomic : forall (o : nops) (n m k : nat) (c : uk_cfg o n m k) z R hx (s : uk_st o n m k) e,
  snd (uk_update z R hx c s) = Some e ->
  e = LinAlgError /\
  exists sh S, fst (uk_update z R hx c s) =
     mkUS (u_x s) (u_P s) (u_sigmas_f s) sh (u_K s) (u_y s) (u_z s) S (u_SI s) (u_x_prior s) (u_P_prior s)
       (u_x_post s) (u_P_post s) (u_loglik s) (u_lik s) (u_mahal s) /\ uc_inv c S = None /\
  forall dt fx, snd (uk_predict dt fx c (fst (uk_update z R hx c s))) = snd (uk_predict dt fx c s) /\
    let t := fst (uk_predict dt fx c (fst (uk_update z R hx c s))) in let t' := fst (uk_predict dt fx c s) in
    u_x t = u_x t' /\ u_P t = u_P t' /\ u_sigmas_f t = u_sigmas_f t'.
Proof.
  intros o n m k c z R hx s e h.
  assert (G : exists sh S, uk_update z R hx c s =
     (mkUS (u_x s) (u_P s) (u_sigmas_f s) sh (u_K s) (u_y s) (u_z s) S (u_SI s) (u_x_prior s) (u_P_prior s)
       (u_x_post s) (u_P_post s) (u_loglik s) (u_lik s) (u_mahal s), Some LinAlgError) /\ uc_inv c S = None).
  { revert h. unfold uk_update. destruct z as [z|]; [|discriminate].
    destruct (unscented_transform _ _ _ _ _ _) as [zp S]. destruct (uc_inv c S) eqn:EI; [discriminate|].
    intros _. do 2 eexists. split; [reflexivity|exact EI]. }
  destruct G as (sh & S & G & hS). rewrite G in h |- *. cbn [fst snd] in h |- *. injection h as <-.
  split; [reflexivity|]. exists sh, S. split; [reflexivity|]. split; [exact hS|].
  intros dt fx. unfold uk_predict, uk_process_sigmas. cbn [u_x u_P u_sigmas_f].
  destruct (pt_sigmas (uc_points c) (u_x s) _); [|split; [reflexivity|]; repeat split].
  destruct (unscented_transform _ _ _ _ _ _) as [x P]. destruct (pt_sigmas (uc_points c) x _); (split; [reflexivity|]; repeat split).
Qed.
Print Assumptions C07_ukf_update_atomic.

Theorem C07_ckf_update_atomic : forall (o : nops) (n m : nat) (c : ck_cfg o n m) z R (s : ck_st o n m) e,
  snd (ck_update z R c s) = Some e ->
  e = LinAlgError /\
  exists sh S, fst (ck_update z R c s) =
     mkCS (c_x s) (c_P s) (c_K s) (c_y s) (c_z s) S (c_SI s) (c_sigmas_f s) sh (c_x_prior s) (c_P_prior s)
       (c_x_post s) (c_P_post s) (c_loglik s) (c_lik s) (c_mahal s) /\ cc_inv c S = None.
Proof.
  intros o n m c z R s e. unfold ck_update. destruct z as [z|]; [|discriminate].
  unfold ck_measure. destruct (ckf_transform _ _) as [zp S]. destruct (cc_inv c S) eqn:EI; [discriminate|].
  cbn [fst snd]. intros [= <-]. split; [reflexivity|]. do 2 eexists. split; [reflexivity|exact EI].
Qed.
Print Assumptions C07_ckf_update_atomic.

(** ** The optional arguments of predict and update are temporary assignments to the attributes of the same name: a
    call with them gives the state (and exception) that a filter holding those values gives without them, a scalar R
    standing for R times the identity. *)
Definition uc_assign o n m k (c : uk_cfg o n m k) (R : option (M o m m)) (dt : option (sc o)) fx hx : uk_cfg o n m k :=
  mkUC (uc_Q c) (match R with Some R => R | None => uc_R c end) (match dt with Some d => d | None => uc_dt c end) (uc_points c) (uc_Wm c) (uc_Wc c)
    (match hx with Some h => h | None => uc_hx c end) (match fx with Some f => f | None => uc_fx c end)
    (uc_x_mean c) (uc_z_mean c) (uc_residual_x c) (uc_residual_z c) (uc_state_add c) (uc_inv c).
Definition cc_assign o n m (c : ck_cfg o n m) (R : option (M o m m)) (dt : option (sc o)) : ck_cfg o n m :=
  mkCC (cc_Q c) (match R with Some R => R | None => cc_R c end) (match dt with Some d => d | None => cc_dt c end)
    (cc_hx c) (cc_fx c) (cc_residual_z c) (cc_chol c) (cc_inv c).
Definition full_R o m (R : option (sm o m)) : option (M o m m) :=
  match R with None => None | Some (Scal a) => Some (mscale a (meye m)) | Some (Mat R) => Some R end.
Theorem C26_override_is_temporary_assignment : forall (o : nops) (n m k : nat) (c : uk_cfg o n m k) (c' : ck_cfg o n m) dt fx z R hx zc s s',
  uk_predict dt fx c s = uk_predict None None (uc_assign c None dt fx None) s /\
  uk_update z R hx c s = uk_update z None None (uc_assign c (full_R R) None None hx) s /\
  ck_predict dt c' s' = ck_predict None (cc_assign c' None dt) s' /\
  ck_update zc R c' s' = ck_update zc None (cc_assign c' (full_R R) None) s'.
Proof.
  intros o n m k c c' dt fx z R hx zc s s'. split; [|split; [|split]].
  - destruct dt, fx; reflexivity.
  - destruct z; [|reflexivity]. destruct R as [[]|], hx; reflexivity.
  - destruct dt; reflexivity.
  - destruct zc; [|reflexivity]. destruct R as [[]|]; reflexivity.
Qed.
Print Assumptions C26_override_is_temporary_assignment.

Open Scope Q_scope.
(** Cases that meet the hypotheses: two epochs, the second measurement missing, R and dt given per epoch; the same
    with a list of Rs that is too short, whose second row is zeros (P = 0: a certain state at the origin) without any
    exception, ... *)
Example C26_batch_example :
  let c := u1_cfg 1 1 0 4 in let zs := [Some (q11 10); None] in
  snd (uk_batch_filter zs (Some [Scal (o := QO) (4#3); Scal (o := QO) 1]) (Some [2; 1]) c (u1_st 1 1)) = Ok [(q11 8, q11 1); (q11 8, q11 1)] /\
  snd (uk_batch_filter zs (Some [Scal (o := QO) (4#3)]) (Some [2; 1]) c (u1_st 1 1)) = Ok [(q11 8, q11 1); (q11 0, q11 0)] /\
  snd (uk_batch_filter [None; Some (q11 10)] None None c (u1_st 1 1)) = Err AttributeError /\
  snd (uk_calls c (plain_epochs 1 [None; Some (q11 10)]) (u1_st 1 1)) = None.
Proof. repeat split; vm_compute; reflexivity. Qed.

(** ... and failing inversions: no spread in the measurement and R = 0. *)
Example C07_ukf_ckf_example :
  snd (uk_update (Some (q11 10)) None None (u1_cfg 1 0 3 0) (u1_st 2 1)) = Some LinAlgError /\
  let c : ck_cfg QO 1 1 := mkCC (o := QO) (n := 1) (m := 1) (q11 0) (q11 0) 1 (fun _ => q11 0) (fun x _ => x) msub sqrt_tab (@l_inv1 QS) in
  let s := ck_init (o := QO) 1 1 (1#1024) in
  snd (ck_update (Some (q11 10)) None c s) = Some LinAlgError.
Proof. split; vm_compute; reflexivity. Qed.
