(** * C77: arrays of integers given as initial values. *)
From Coq Require Import List Arith Bool ZArith Reals Lra Lia.
From Flocq Require Import Core.
From Verif Require Import Ops RealOps Model_GH Model_LSQ Model_DB Model_KF Model_Sqrt Model_Dtype Model_MM ListOps.
Import ListNotations.

(** ** Floats: the plain models *)
Theorem C77_fading_float : forall (o : sops) (trunc : sc o -> sc o) (zs : list (sc o)) (s : fmf o) (a : x0_arg),
  let s' := fold_left (fun s z => fmf_update z s) zs s in
  (x0_dtype a = Float -> fmf_dt_run trunc zs (x0_dtype a, s) = (Float, s')) /\
  (m_order s = 0 -> snd (fmf_dt_run trunc zs (x0_dtype a, s)) = s').
Proof.
  intros o trunc zs s a. generalize (x0_dtype a) as t. clear a.
  assert (F : forall z s, fmf_dt_update trunc z (Float, s) = (Float, fmf_update z s)).
  { intros z [dt [|[|k]] b x0 x1 x2 P e]; reflexivity. }
  assert (G : forall zs s, fmf_dt_run trunc zs (Float, s) = (Float, fold_left (fun s z => fmf_update z s) zs s)).
  { clear zs s. induction zs as [|z zs IH]; intros s; [reflexivity|]. cbn [fmf_dt_run fold_left]. rewrite F. apply IH. }
  intros t. split; [intros ->; apply G|]. intros H0. destruct zs as [|z zs]; [reflexivity|].
  cbn [fmf_dt_run fold_left]. replace (fmf_dt_update trunc z (t, s)) with (Float, fmf_update z s) by (unfold fmf_dt_update; rewrite H0; reflexivity).
  change (snd (fmf_dt_run trunc zs (Float, fmf_update z s)) = fold_left (fun s z => fmf_update z s) zs (fmf_update z s)). rewrite G. reflexivity.
Qed.
Print Assumptions C77_fading_float.

(** ** FadingMemoryFilter of order 1 or 2 *)
Definition rtrunc (x : R) : R := IZR (Ztrunc x).
(** [y] is [x] without its fractional part. *)
Definition cut (x y : R) : Prop := (exists k : Z, y = IZR k) /\ (Rabs y <= Rabs x)%R /\ (Rabs (x - y) < 1)%R /\ (0 <= x * y)%R.
Lemma rtrunc_cut x : cut x (rtrunc x).
Proof.
  unfold cut, rtrunc. split; [exists (Ztrunc x); reflexivity|]. destruct (Rle_lt_dec 0 x) as [h|h].
  - rewrite Ztrunc_floor by exact h. pose proof (Zfloor_lb x). pose proof (Zfloor_ub x).
    assert (0 <= IZR (Zfloor x))%R by (apply (IZR_le 0), Zfloor_lub; exact h).
    rewrite !Rabs_pos_eq by lra. repeat split; try lra. apply Rmult_le_pos; lra.
  - rewrite Ztrunc_ceil by lra. pose proof (Zceil_ub x). pose proof (Zceil_lb x).
    assert (IZR (Zceil x) <= 0)%R by (apply (IZR_le _ 0), Zceil_glb; lra).
    rewrite (Rabs_left1 (IZR (Zceil x))), (Rabs_left1 x) by lra. rewrite Rabs_left1 by lra. repeat split; try lra.
    replace (x * IZR (Zceil x))%R with ((- x) * - IZR (Zceil x))%R by ring. apply Rmult_le_pos; lra.
Qed.
(** Every update throws the fractional parts of the estimate away, towards zero, and so keeps the estimate an integer. *)
Theorem C77_fading_integer_refuted : forall (s : fmf RS) (z : R), m_order s = 1 \/ m_order s = 2 ->
  let f := fmf_update (o := RS) z s in let r := fmf_dt_update (o := RS) rtrunc z (x0_dtype (Array Int), s) in
  fst r = Int /\ cut (m_x0 f) (m_x0 (snd r)) /\ cut (m_x1 f) (m_x1 (snd r)) /\ (m_order s = 2 -> cut (m_x2 f) (m_x2 (snd r))).
Proof.
  intros [dt k b x0 x1 x2 P e] z [H|H]; cbn [m_order] in H; subst k; cbn [x0_dtype fst snd]; (split; [reflexivity|]);
    (split; [apply rtrunc_cut|]); (split; [apply rtrunc_cut|]); intros H; [discriminate H|apply rtrunc_cut].
Qed.
Print Assumptions C77_fading_integer_refuted.

(** A filter at rest at an integer, given measurements above it but within 1 / G (and dt / H, dt^2 / 2K), never moves. *)
Definition gains (order : nat) (b dt : R) : R * R * R :=
  match order with
  | 1 => (1 - b ^ 2, (1 - b) ^ 2 / dt, 0)
  | _ => (1 - b ^ 3, 3 / 2 * (1 + b) * (1 - b) ^ 2 / dt, (1 - b) ^ 3 / dt ^ 2)
  end%R.
Lemma rtrunc_stay (k : nat) (e : R) : (0 <= e < 1)%R -> rtrunc (INR k + e) = INR k.
Proof.
  intros H. unfold rtrunc. rewrite INR_IZR_INZ. f_equal. pose proof (IZR_le 0 (Z.of_nat k) ltac:(lia)).
  rewrite Ztrunc_floor by lra. apply Zfloor_imp. rewrite plus_IZR. lra.
Qed.
Theorem C77_fading_stuck_refuted : forall (order k : nat) (b dt : R) (zs : list R) (s : fmf RS),
  order = 1 \/ order = 2 -> (0 < b < 1)%R -> (0 < dt)%R ->
  fmf_init (o := RS) (INR k) 0%R 0%R dt false order b = Ok s ->
  (forall z, In z zs -> let '(g, h, q) := gains order b dt in
     (0 <= z - INR k)%R /\ (g * (z - INR k) < 1)%R /\ (h * (z - INR k) < 1)%R /\ (q * (z - INR k) < 1)%R) ->
  fmf_dt_run (o := RS) rtrunc zs (x0_dtype (Array Int), s) = (Int, s) /\
  forall z, z <> INR k -> m_x0 (fmf_update (o := RS) z s) <> INR k.
Proof.
  intros order k b dt zs s Ho Hb Hdt Hi Hz.
  assert (pw : (0 < 1 - b)%R) by lra.
  assert (G2 : (0 < 1 - b ^ 2)%R). { replace (1 - b ^ 2)%R with ((1 - b) * (1 + b))%R by ring. apply Rmult_lt_0_compat; lra. }
  assert (G3 : (0 < 1 - b ^ 3)%R). { replace (1 - b ^ 3)%R with ((1 - b) * (1 + b + b * b))%R by ring. apply Rmult_lt_0_compat; [lra|]. pose proof (Rmult_lt_0_compat b b). lra. }
  split.
  - induction zs as [|z zs IH]; [reflexivity|]. cbn [fmf_dt_run fold_left].
    assert (E : fmf_dt_update (o := RS) rtrunc z (x0_dtype (Array Int), s) = (Int, s)).
    { specialize (Hz z (or_introl eq_refl)).
      assert (p2 : (0 < (1 - b) ^ 2)%R) by (apply pow_lt; lra). assert (p3 : (0 < (1 - b) ^ 3)%R) by (apply pow_lt; lra).
      assert (d2 : (0 < dt ^ 2)%R) by (apply pow_lt; lra).
      assert (z0 : forall e, (0 <= e < 1)%R -> rtrunc e = 0%R) by (intros e He; rewrite <- (Rplus_0_l e); apply (rtrunc_stay 0 e He)).
      destruct Ho as [-> | ->]; cbn [gains] in Hz; destruct Hz as (r0 & rg & rh & rq); injection Hi as <-;
        unfold fmf_dt_update, fmf_update; cbn [m_order m_dt m_beta m_x0 m_x1 m_x2 m_P m_e x0_dtype store]; apply f_equal; f_equal; rs.
      - replace (_ + _ + _)%R with (INR k + (1 - b ^ 2) * (z - INR k))%R by ring. apply rtrunc_stay. split; [apply Rmult_le_pos; lra|exact rg].
      - replace (_ + _)%R with ((1 - b) ^ 2 / dt * (z - INR k))%R by (field; lra). apply z0.
        split; [apply Rmult_le_pos; [apply Rlt_le, Rdiv_lt_0_compat|]; lra|exact rh].
      - unfold half. rs. replace (_ + _)%R with (INR k + (1 - b ^ 3) * (z - INR k))%R by (field; lra). apply rtrunc_stay. split; [apply Rmult_le_pos; lra|exact rg].
      - unfold half, three_halves. rs.
        replace (_ + _)%R with (3 / 2 * (1 + b) * (1 - b) ^ 2 / dt * (z - INR k))%R by (field; lra). apply z0. split; [|exact rh].
        apply Rmult_le_pos; [|lra]. apply Rlt_le, Rdiv_lt_0_compat; [|lra]. apply Rmult_lt_0_compat; lra.
      - unfold half. rs. replace (_ + _)%R with ((1 - b) ^ 3 / dt ^ 2 * (z - INR k))%R by (field; lra). apply z0.
        split; [apply Rmult_le_pos; [apply Rlt_le, Rdiv_lt_0_compat|]; lra|exact rq]. }
    rewrite E. apply IH. intros y Hy. apply Hz. right. exact Hy.
  - intros z Hne. destruct Ho as [-> | ->]; injection Hi as <-; unfold fmf_update; cbn [m_order m_dt m_beta m_x0 m_x1 m_x2]; unfold half; rs; intros E.
    + assert (X : ((1 - b ^ 2) * (z - INR k) = 0)%R) by lra. apply Rmult_integral in X. destruct X; lra.
    + assert (X : ((1 - b ^ 3) * (z - INR k) = 0)%R) by lra. apply Rmult_integral in X. destruct X; lra.
Qed.
Print Assumptions C77_fading_stuck_refuted.

(** ** The discrete Bayes filter *)
(** update works as soon as one of its arguments holds floats, and raises TypeError on two arrays of integers that it could
    otherwise multiply. *)
Theorem C77_bayes_update : forall (o : sops) (tl tp : dtype) (likelihood prior : list (sc o)),
  (tl = Float \/ tp = Float -> db_dt_update tl tp likelihood prior = db_update likelihood prior) /\
  (tl = Int -> tp = Int -> forall q, db_update likelihood prior = Ok q -> db_dt_update tl tp likelihood prior = Err TypeError).
Proof.
  intros o tl tp lk pr. unfold db_dt_update, db_update. split.
  - intros H. assert (E : dmul tp tl = Float) by (destruct H as [-> | ->]; [destruct tp|]; reflexivity). rewrite E.
    destruct (bmul pr lk); reflexivity.
  - intros -> -> q. destruct (bmul pr lk); [reflexivity|discriminate].
Qed.
Print Assumptions C77_bayes_update.

Lemma fold_sum_none (f : nat -> R) (l : list nat) (a : R) : (forall k, In k l -> f k = 0%R) -> fold_left (fun a k => (a + f k)%R) l a = a.
Proof.
  revert a; induction l as [|x l IH]; intros a H; [reflexivity|]. cbn [fold_left]. rewrite IH by (intros k Hk; apply H; right; exact Hk).
  rewrite H by (left; reflexivity). ring.
Qed.
(** A sum of numbers in [0, 1) of which at most one is not zero. *)
Lemma fold_sum_one (f : nat -> R) (l : list nat) : NoDup l -> (forall k, In k l -> 0 <= f k < 1)%R ->
  (forall j k, In j l -> In k l -> f j <> 0%R -> f k <> 0%R -> j = k) -> (0 <= fold_left (fun a k => (a + f k)%R) l 0 < 1)%R.
Proof.
  induction l as [|x l IH]; intros ND H1 H2; [cbn; lra|]. cbn [fold_left].
  destruct (Req_dec (f x) 0) as [E|E].
  - rewrite E, Rplus_0_l. apply IH; [inversion ND; assumption|..]; intros; [apply H1|apply H2]; try right; assumption.
  - rewrite fold_sum_none.
    + rewrite Rplus_0_l. apply H1. left; reflexivity.
    + intros k Hk. destruct (Req_dec (f k) 0) as [Ek|Ek]; [exact Ek|]. exfalso. inversion ND as [|? ? NI _]; subst. apply NI.
      rewrite (H2 x k); auto; [left; reflexivity|right; exact Hk].
Qed.
Lemma nth_map_seq (A : Type) (f : nat -> A) (n i : nat) (d : A) : i < n -> nth i (map f (seq 0 n)) d = f i.
Proof.
  intros H. rewrite (nth_indep _ d (f 0)) by (rewrite map_length, seq_length; exact H). rewrite map_nth, seq_nth by exact H. reflexivity.
Qed.
(** predict from a belief that is certain of one place, written with integers: whatever the offset and however the kernel
    spreads the belief (no weight 1), the result is zero everywhere. *)
Definition certain (n h : nat) : list R := map (fun i => if i =? h then 1%R else 0%R) (seq 0 n).
Theorem C77_bayes_predict_refuted : forall (n h : nat) (offset : Z) (kernel : list R), h < n -> length kernel <= n ->
  Forall (fun w => 0 <= w < 1)%R kernel ->
  db_dt_predict (o := RS) rtrunc (x0_dtype (Array Int)) (certain n h) offset kernel = repeat 0%R n.
Proof.
  intros n h offset kernel Hh Hk Hw. cbn [x0_dtype].
  assert (Ln : length (certain n h) = n) by (unfold certain; rewrite map_length, seq_length; reflexivity).
  assert (Ln' : @length (sc RS) (certain n h) = n) by exact Ln.
  assert (Lr : length (roll (o := RS) (certain n h) offset) = n) by (unfold roll; rewrite map_length, seq_length; exact Ln).
  assert (Gc : forall j, j < n -> nth j (certain n h) 0%R = if j =? h then 1%R else 0%R).
  { intros j Hj. apply (nth_map_seq R (fun i => if i =? h then 1%R else 0%R)), Hj. }
  assert (Gr : forall j, j < n -> nth j (roll (o := RS) (certain n h) offset) 0%R = if Z.to_nat ((Z.of_nat j - offset) mod Z.of_nat n) =? h then 1%R else 0%R).
  { intros j Hj. unfold roll. rewrite Ln'. etransitivity; [apply (nth_map_seq R), Hj|]. unfold zget. apply Gc.
    pose proof (Z.mod_pos_bound (Z.of_nat j - offset) (Z.of_nat n)). lia. }
  unfold db_dt_predict, db_predict, conv_wrap, conv. rewrite Lr, map_map.
  apply (nth_ext _ _ 0%R 0%R); [rewrite map_length, seq_length, repeat_length; reflexivity|].
  intros i Hi. rewrite map_length, seq_length in Hi. rewrite nth_repeat.
  etransitivity; [apply (nth_map_seq R), Hi|]. cbn [store].
  match goal with |- rtrunc ?e = _ => assert (B : (0 <= e < 1)%R) end.
  2:{ rewrite <- (Rplus_0_l (fold_left _ _ _)). apply (rtrunc_stay 0), B. }
  change (0 <= fold_left (fun a k => (a + nth k kernel 0 * zget (o := RS) (roll (o := RS) (certain n h) offset) ((Z.of_nat i + Z.of_nat (length kernel / 2) - Z.of_nat k) mod Z.of_nat n)))
     (seq 0 (length kernel)) 0 < 1)%R.
  assert (V : forall k, zget (o := RS) (roll (o := RS) (certain n h) offset) ((Z.of_nat i + Z.of_nat (length kernel / 2) - Z.of_nat k) mod Z.of_nat n) =
    if (((Z.of_nat i + Z.of_nat (length kernel / 2) - Z.of_nat k - offset) mod Z.of_nat n) =? Z.of_nat h)%Z then 1%R else 0%R).
  { intros k. unfold zget. pose proof (Z.mod_pos_bound (Z.of_nat i + Z.of_nat (length kernel / 2) - Z.of_nat k) (Z.of_nat n)) as Bm.
    etransitivity; [apply Gr; lia|]. rewrite Z2Nat.id by lia. rewrite Zminus_mod_idemp_l.
    pose proof (Z.mod_pos_bound (Z.of_nat i + Z.of_nat (length kernel / 2) - Z.of_nat k - offset) (Z.of_nat n)) as Bn.
    destruct (Z.eqb_spec ((Z.of_nat i + Z.of_nat (length kernel / 2) - Z.of_nat k - offset) mod Z.of_nat n) (Z.of_nat h)) as [E|E].
    - rewrite E, Nat2Z.id, Nat.eqb_refl. reflexivity.
    - destruct (Nat.eqb_spec (Z.to_nat ((Z.of_nat i + Z.of_nat (length kernel / 2) - Z.of_nat k - offset) mod Z.of_nat n)) h) as [E'|E']; [|reflexivity].
      exfalso. apply E. rewrite <- E', Z2Nat.id; lia. }
  apply fold_sum_one; [apply seq_NoDup|..].
  - intros k Hk'. apply in_seq in Hk'. rewrite V. rewrite Forall_forall in Hw. specialize (Hw (nth k kernel 0%R) (nth_In kernel 0%R (proj2 Hk'))).
    destruct (_ =? _)%Z; rewrite ?Rmult_1_r, ?Rmult_0_r; lra.
  - intros j k Hj Hk' Ej Ek. apply in_seq in Hj, Hk'. rewrite V in Ej, Ek.
    destruct (Z.eqb_spec ((Z.of_nat i + Z.of_nat (length kernel / 2) - Z.of_nat j - offset) mod Z.of_nat n) (Z.of_nat h)) as [A|A]; [|exfalso; apply Ej; ring].
    destruct (Z.eqb_spec ((Z.of_nat i + Z.of_nat (length kernel / 2) - Z.of_nat k - offset) mod Z.of_nat n) (Z.of_nat h)) as [B|B]; [|exfalso; apply Ek; ring].
    rewrite <- B in A. assert (D : ((Z.of_nat k - Z.of_nat j) mod Z.of_nat n = 0)%Z).
    { replace (Z.of_nat k - Z.of_nat j)%Z with ((Z.of_nat i + Z.of_nat (length kernel / 2) - Z.of_nat j - offset) -
        (Z.of_nat i + Z.of_nat (length kernel / 2) - Z.of_nat k - offset))%Z by lia. rewrite Zminus_mod, A, Z.sub_diag. apply Zmod_0_l. }
    apply Z.mod_divide in D; [|lia]. destruct D as [q Hq].
    assert (q = 0)%Z; [|lia]. destruct (Z.eq_dec q 0) as [|N]; [assumption|]. exfalso.
    assert (Z.of_nat n <= Z.abs (q * Z.of_nat n))%Z. { rewrite Z.abs_mul, (Z.abs_eq (Z.of_nat n)) by lia. nia. } lia.
Qed.
Print Assumptions C77_bayes_predict_refuted.

(** ** KalmanFilter and SquareRootKalmanFilter with an x of integers *)
Section Filters.
Variable o : nops.
Variables n m l : nat.
Notation kf := (kf o n m l).
Definition is_seq (c : kf_call o n m l) : bool := match c with CUpdateSeq _ _ _ _ _ _ => true | _ => false end.

Lemma dt_float (cs : list (kf_call o n m l)) (s : kf) : kf_dt_run cs (Float, s) = (Float, kf_run cs s).
Proof.
  revert s; induction cs as [|c cs IH]; intros s; [reflexivity|].
  assert (E : fst (kf_dt_step c (Float, s)) = (Float, fst (kf_step c s))).
  { destruct c; try (cbn [kf_dt_step]; destruct (kf_step _ _) as [s' e]; cbn [fst snd]; destruct (kf_binds_x _ _); reflexivity).
    cbn [kf_dt_step kf_dt_update_sequential kf_step]. destruct (kf_update_sequential _ _ _ _ _ _); reflexivity. }
  cbn [kf_dt_run kf_run fold_left]. rewrite E. apply IH.
Qed.
(** Calls that assign self.x: predictions, and updates with a measurement that return. *)
Definition assigns_x (c : kf_call o n m l) (s : kf) : Prop :=
  match c with
  | CPredict _ _ _ _ | CPredictSS _ _ | CUpdateSS (Some _) => True
  | CUpdate (Some _) _ _ | CUpdateCorr (Some _) _ _ => snd (kf_step c s) = None
  | _ => False
  end.
(** Whatever the type of x, a KalmanFilter computes as if x held floats, provided another call has assigned x before the
    first update_sequential. *)
Theorem C77_kalman : forall (cs1 cs2 : list (kf_call o n m l)) (t : dtype) (s : kf),
  forallb (fun c => negb (is_seq c)) cs1 = true ->
  (t = Float \/ cs2 = [] \/ exists pre c post, cs1 = pre ++ c :: post /\ assigns_x c (kf_run pre s)) ->
  snd (kf_dt_run (cs1 ++ cs2) (t, s)) = kf_run (cs1 ++ cs2) s.
Proof.
  intros cs1 cs2 t s H HF.
  assert (S : forall cs ts, forallb (fun c => negb (is_seq c)) cs = true -> snd (kf_dt_run cs ts) = kf_run cs (snd ts)).
  { clear. induction cs as [|c cs IH]; intros ts H; [reflexivity|]. cbn [forallb] in H. apply andb_true_iff in H as [H1 H2].
    cbn [kf_dt_run kf_run fold_left]. specialize (IH (fst (kf_dt_step c ts)) H2). unfold kf_dt_run, kf_run in IH. rewrite IH. f_equal.
    destruct c; try discriminate H1; cbn [kf_dt_step]; destruct (kf_step _ _); reflexivity. }
  assert (A : forall c ts, assigns_x c (snd ts) -> fst (fst (kf_dt_step c ts)) = Float).
  { clear. intros c [t s]. destruct c as [| [z|] R H| |[z|]|[z|] R H| | | | |]; unfold assigns_x, kf_dt_step; cbn [snd fst]; try contradiction;
      try (intros _; reflexivity); match goal with |- context [kf_step ?c s] => destruct (kf_step c s) as [s' e] end; cbn [snd]; intros ->; reflexivity. }
  assert (HF' : fst (kf_dt_run cs1 (t, s)) = Float \/ cs2 = []).
  { destruct HF as [-> |[->|(pre & c & post & -> & hc)]]; [left; exact (f_equal fst (dt_float cs1 s))|right; reflexivity|left].
    rewrite forallb_app in H. apply andb_true_iff in H as [H1 _].
    unfold kf_dt_run. rewrite fold_left_app. cbn [fold_left]. fold (kf_dt_run pre (t, s)).
    assert (hc' : assigns_x c (snd (kf_dt_run pre (t, s)))) by (rewrite S by exact H1; exact hc). apply A in hc'.
    destruct (fst (kf_dt_step c (kf_dt_run pre (t, s)))) as [t' s']. cbn [fst] in hc'. subst t'.
    exact (f_equal fst (dt_float post s')). }
  clear HF. rename HF' into HF.
  unfold kf_dt_run, kf_run. rewrite !fold_left_app. fold (kf_dt_run cs1 (t, s)) (kf_run cs1 s). pose proof (S cs1 (t, s) H) as E. cbn [snd] in E.
  destruct HF as [HF| ->]; [|exact E]. destruct (kf_dt_run cs1 (t, s)) as [t' s']; cbn [fst snd] in *. subst t' s'.
  exact (f_equal snd (dt_float cs2 (kf_run cs1 s))).
Qed.
Lemma seq_err (k : nat) (linv : M o k k -> option (M o k k)) start z R H (s s' : kf) e :
  kf_update_sequential linv start z R H s = (s', Some e) -> s' = s \/ exists y, s' = set_kf_y y s.
Proof.
  unfold kf_update_sequential. destruct (negb (start + k <=? m)); [intros [= <- _]; left; reflexivity|]. cbv zeta.
  match goal with |- context [match ?X with Some _ => _ | None => _ end] => destruct X; [discriminate|] end.
  intros [= <- _]. right. eexists. reflexivity.
Qed.
(** On an x of integers update_sequential never succeeds: when it would have, it raises TypeError, after it has stored the
    gain and the residual; estimate, covariance, measurement and posterior are those from before the call, and so is the
    type of x: the next update_sequential fails too. *)
Theorem C77_sequential_refuted : forall (k : nat) (linv : M o k k -> option (M o k k)) (start : nat) (z : M o k 1) (R : option (sm o k)) (H : option (M o k n)) (s : kf),
  let r := kf_dt_step (CUpdateSeq k linv start z R H) (Int, s) in
  let p := kf_update_sequential linv start z R H s in
  let s' := snd (fst r) in
  snd r = Some (match snd p with Some e => e | None => TypeError end) /\ fst (fst r) = Int /\
  kf_x s' = kf_x s /\ kf_P s' = kf_P s /\ kf_z s' = kf_z s /\ kf_x_post s' = kf_x_post s /\ kf_P_post s' = kf_P_post s /\
  kf_K s' = kf_K (fst p) /\ kf_y s' = kf_y (fst p).
Proof.
  intros k linv start z R H s. cbn [kf_dt_step kf_dt_update_sequential].
  destruct (kf_update_sequential linv start z R H s) as [s' [e|]] eqn:E; cbn [fst snd].
  - apply seq_err in E as [-> |[y ->]]; repeat split.
  - clear E. repeat split.
Qed.

Variable qr : forall p q : nat, M o p q -> M o p q.
Variable pinv : M o m m -> M o m m.
(** SquareRootKalmanFilter: every update before the first prediction raises TypeError; x, P, z and the posterior are kept.
    From the first prediction on the type of the initial x makes no difference. *)
Theorem C77_square_root_refuted : forall (c : sq_cfg o n m l) (s : sq_st o n m),
  (forall z R2, let r := sq_dt_step qr pinv (c, SUpdate (Some z) R2) (Int, s) in
    snd r = Some TypeError /\ fst (fst r) = Int /\ q_x (snd (fst r)) = q_x s /\ q_P12 (snd (fst r)) = q_P12 s /\
    q_z (snd (fst r)) = q_z s /\ q_x_post (snd (fst r)) = q_x_post s /\ q_P12_post (snd (fst r)) = q_P12_post s) /\
  (forall u t cs, sq_dt_run qr pinv ((c, SPredict u) :: cs) (t, s) = (Float, sq_run qr pinv ((c, SPredict u) :: cs) s)).
Proof.
  intros c s. split; [intros; repeat split|]. intros u t cs.
  change (sq_dt_run qr pinv cs (Float, sq_predict qr u c s) = (Float, sq_run qr pinv cs (sq_predict qr u c s))).
  generalize (sq_predict qr u c s). clear s. induction cs as [|[c' a] cs IH]; intros s; [reflexivity|].
  destruct a as [u'|[z|] R2]; apply IH.
Qed.
End Filters.
Print Assumptions C77_kalman.
Print Assumptions C77_sequential_refuted.
Print Assumptions C77_square_root_refuted.

(** ** Examples *)
(** dt = 1, beta = 1/2: from x0 = [3, 0] a measurement of 4 repeated for ever is never followed. *)
Example C77_fading_example : forall N : nat, exists s : fmf RS,
  fmf_init (o := RS) 3%R 0%R 0%R 1%R false 1 (1 / 2)%R = Ok s /\
  m_x0 (snd (fmf_dt_run (o := RS) rtrunc (repeat 4%R N) (Int, s))) = 3%R /\
  m_x0 (fmf_update (o := RS) 4%R s) = (15 / 4)%R.
Proof.
  intros N. eexists. split; [reflexivity|]. split.
  - match goal with |- context [fmf_dt_run _ _ (Int, ?s)] => pose proof (C77_fading_stuck_refuted 1 3 (1 / 2) 1 (repeat 4%R N) s) as H end.
    change (INR 3) with (1 + 1 + 1)%R in H. replace (1 + 1 + 1)%R with 3%R in H by ring.
    destruct H as [E _]; [left; reflexivity|lra|lra|reflexivity|..].
    + intros z Hz. apply repeat_spec in Hz. subst z. cbn [gains]. lra.
    + cbn [x0_dtype] in E. rewrite E. reflexivity.
  - unfold fmf_update. cbn [m_order m_dt m_beta m_x0 m_x1 m_x2]. rs. field.
Qed.
Example C77_bayes_example : db_dt_predict (o := RS) rtrunc Int (certain 5 2) 1 [1 / 10; 8 / 10; 1 / 10]%R = repeat 0%R 5.
Proof. apply (C77_bayes_predict_refuted 5 2 1); [lia|cbn; lia|repeat constructor; lra]. Qed.
(** One state at 3: an update makes x floats, after which update_sequential works; called first it raises. *)
Definition qone (a : QArith_base.Q) : M QO 1 1 := [[a]].
Definition kdt : kf QO 1 1 1 := set_kf_x (qone (QArith_base.inject_Z 3)) (set_kf_H (qone (QArith_base.inject_Z 1)) (@kf_init QO 1 1 1 (QArith_base.Qmake 1 1024) (l_inv1 QS))).
Example C77_kalman_example :
  let up := CUpdate (o := QO) (n := 1) (m := 1) (l := 1) (Some (qone (QArith_base.inject_Z 4))) None None in
  let sq := CUpdateSeq (o := QO) (n := 1) (m := 1) (l := 1) 1 (l_inv1 QS) 0 (qone (QArith_base.inject_Z 4)) None None in
  fst (kf_dt_run [up] (Int, kdt)) = Float /\ snd (kf_dt_step sq (kf_dt_run [up] (Int, kdt))) = None /\
  snd (kf_dt_step sq (Int, kdt)) = Some TypeError.
Proof. vm_compute. repeat split. Qed.

(** ** MMAEFilterBank *)
Section BankThms.
Variable o : nops.
Variable trunc : sc o -> sc o.
Variables n m l : nat.
Variable T : Type.
Variable D : filt o n m l T.
Variable N : nat.
Lemma dt_all_float z R H i fs (p : M o 1 N) : mmae_dt_update_all trunc D Float z R H i fs p = mmae_update_all D z R H i fs p.
Proof.
  revert i p; induction fs as [|f fs IH]; intros i p; cbn; [reflexivity|].
  destruct (f_update D z R H f) as [f' [e|]]; [reflexivity|]. destruct (f_lik D f') as [L f'']. rewrite IH. reflexivity.
Qed.
(** The filters do not see p. *)
Lemma dt_all_filters t z R H i fs (p p' : M o 1 N) :
  let r := mmae_dt_update_all trunc D t z R H i fs p in let r' := mmae_update_all D z R H i fs p' in
  fst (fst r) = fst (fst r') /\ snd r = snd r'.
Proof.
  revert i p p'; induction fs as [|f fs IH]; intros i p p'; cbn; [split; reflexivity|].
  destruct (f_update D z R H f) as [f' [e|]]; [split; reflexivity|]. destruct (f_lik D f') as [L f''].
  match goal with |- context [mmae_dt_update_all _ _ _ _ _ _ _ _ ?q] => match goal with |- context [mmae_update_all _ _ _ _ _ _ ?q'] => specialize (IH (S i) q q') end end.
  destruct (mmae_dt_update_all _ _ _ _ _ _ _ _ _) as [[r1 p1] e1], (mmae_update_all _ _ _ _ _ _ _) as [[r2 p2] e2]. cbn in *.
  destruct IH as [-> ->]; split; reflexivity.
Qed.
(** A bank made with floats is the bank of Model_MM. *)
Theorem C77_mmae_float : forall z R H (s : mmae o n m T N), mmae_dt_update trunc D Float z R H s = mmae_update D z R H s.
Proof.
  intros. unfold mmae_dt_update, mmae_update. rewrite dt_all_float.
  destruct (mmae_update_all _ _ _ _ _ _ _) as [[fs p] [e|]]; reflexivity.
Qed.
(** Made with integers (p = [1, 0]), no update of it ever succeeds.  Where the bank made with floats succeeds, it raises
    TypeError after every filter has taken the measurement; x, P and the rest of the bank's estimate stay as they were. *)
Theorem C77_mmae_integer_refuted : forall z R H (s s' : mmae o n m T N) e, mmae_dt_update trunc D Int z R H s = (s', e) ->
  let r := mmae_update D z R H s in
  e = Some (match snd r with Some e => e | None => TypeError end) /\ a_filters s' = a_filters (fst r) /\
  (a_H s', a_z s', a_x s', a_P s', a_x_prior s', a_P_prior s', a_x_post s', a_P_post s') =
  (a_H s, a_z s, a_x s, a_P s, a_x_prior s, a_P_prior s, a_x_post s, a_P_post s).
Proof.
  intros z R H s s' e E. unfold mmae_dt_update in E. unfold mmae_update.
  pose proof (dt_all_filters Int z R (match H with Some _ => H | None => a_H s end) 0 (a_filters s) (a_p s) (a_p s)) as h.
  destruct (mmae_dt_update_all _ _ _ _ _ _ _ _ _) as [[r1 p1] e1], (mmae_update_all _ _ _ _ _ _ _) as [[r2 p2] e2]. cbn in h.
  destruct h as [h1 h2]. subst. destruct e2 as [e2|]; injection E as <- <-; repeat split; reflexivity.
Qed.
End BankThms.
Print Assumptions C77_mmae_float.
Print Assumptions C77_mmae_integer_refuted.

Notation RO := (listO RS).
Lemma get_fun a b (f : nat -> nat -> R) i j : i < a -> j < b -> @mget RO a b (@mfun RO a b f) i j = f i j.
Proof.
  intros Hi Hj. change (nth j (nth i (map (fun i => map (fun j => f i j) (seq 0 b)) (seq 0 a)) []) 0%R = f i j).
  rewrite (nth_indep _ [] (map (fun j => f 0 j) (seq 0 b))) by (rewrite map_length, seq_length; exact Hi).
  rewrite (map_nth (fun i => map (fun j => f i j) (seq 0 b))), seq_nth by exact Hi.
  rewrite (nth_indep _ 0%R (f (0 + i) 0)) by (rewrite map_length, seq_length; exact Hj).
  rewrite (map_nth (fun j => f (0 + i) j)), seq_nth by exact Hj. reflexivity.
Qed.
(** Moreover the probabilities are lost.  If each filter finds the measurement less likely than 1, all of p is 0 after the
    failed update, where only 0 and 1 were. *)
Theorem C77_mmae_integer_lost_refuted : forall (n m l : nat) (T : Type) (D : filt RO n m l T) (N : nat) z Rz H
    (s s' : mmae RO n m T N),
  (forall f f', f_update D z Rz (match H with None => a_H s | Some _ => H end) f = (f', None) ->
     (0 <= (fst (f_lik D f') : R) < 1)%R) ->
  length (a_filters s) = N -> (forall j, j < N -> mget (a_p s : M RO 1 N) 0 j = 0%R \/ mget (a_p s : M RO 1 N) 0 j = 1%R) ->
  mmae_dt_update (o := RO) rtrunc D Int z Rz H s = (s', Some TypeError) -> snd (mmae_update D z Rz H s) = None ->
  forall j, j < N -> mget (a_p s' : M RO 1 N) 0 j = 0%R.
Proof.
  intros n m l T D N z Rz H s s' hL hN h01 E hn.
  set (H' := match H with None => a_H s | Some _ => H end) in *.
  assert (K : forall fs i (p : M RO 1 N), i + length fs = N ->
     (forall j, j < N -> mget p 0 j = 0%R \/ mget p 0 j = 1%R) -> (forall j, j < i -> mget p 0 j = 0%R) ->
     let r := mmae_dt_update_all (o := RO) rtrunc D Int z Rz H' i fs p in
     snd r = None -> forall j, j < N -> mget (snd (fst r)) 0 j = 0%R).
  { induction fs as [|f fs IH]; intros i p hi h1 h2; cbn [mmae_dt_update_all].
    - cbn. intros _ j hj. apply h2. cbn in hi. lia.
    - destruct (f_update D z Rz H' f) as [f' [e|]] eqn:Eu; [cbn; discriminate|].
      specialize (hL _ _ Eu). destruct (f_lik D f') as [L f'']. cbn [fst] in hL.
      match goal with |- context [mmae_dt_update_all _ _ _ _ _ _ _ _ ?q] => set (p1 := q) end.
      cbn [length] in hi.
      assert (g : forall j, j < N -> mget p1 0 j = if j =? i then 0%R else mget p 0 j).
      { intros j hj. unfold p1. rewrite get_fun by lia. cbn [store]. destruct (Nat.eqb_spec j i); [|reflexivity].
        subst j. change (rtrunc (mget p 0 i * L) = 0)%R. rewrite <- (Rplus_0_l (_ * _)). apply (rtrunc_stay 0).
        destruct (h1 i ltac:(lia)) as [-> | ->]; lra. }
      specialize (IH (S i) p1).
      destruct (mmae_dt_update_all _ _ _ _ _ _ (S i) fs p1) as [[r2 p2] e2]. cbn [fst snd] in IH |- *. apply IH; [lia|..].
      + intros j hj. rewrite g by exact hj. destruct (j =? i); auto.
      + intros j hj. rewrite g by lia. destruct (Nat.eqb_spec j i); [reflexivity|]. apply h2. lia. }
  unfold mmae_dt_update in E. fold H' in E.
  specialize (K (a_filters s) 0 (a_p s) hN h01 ltac:(intros; lia)).
  unfold mmae_update in hn. fold H' in hn.
  pose proof (@dt_all_filters RO rtrunc n m l T D N Int z Rz H' 0 (a_filters s) (a_p s) (a_p s)) as h.
  destruct (mmae_dt_update_all _ _ _ _ _ _ _ _ _) as [[r1 p1] e1], (mmae_update_all _ _ _ _ _ _ _) as [[r2 p2] e2]. cbn [fst snd] in h, K.
  destruct h as [h1 h2]. subst. destruct e2 as [e2|]; [discriminate|]. injection E as <-. cbn [a_p]. exact (K eq_refl).
Qed.
Print Assumptions C77_mmae_integer_lost_refuted.
(** Two Kalman filters of one state, the logarithm of the density always -1, p = [1, 0]: one update, and p is [0, 0]. *)
Definition bank_filt := @kf_filt RO 1 1 1 (fun _ _ _ => (-1)%R) 0%R.
Lemma caches_none (o : nops) (n m l : nat) z R H (g g' : kf o n m l) : kf_update z R H g = (g', None) ->
  kf_lik g' = None /\ kf_loglik g' = None.
Proof.
  intros E. unfold kf_update in E. destruct z as [z|]; [|injection E as <-; split; reflexivity]. cbv zeta in E.
  destruct (kf_inv _ _); [injection E as <-; split; reflexivity|discriminate E].
Qed.
Lemma lik_lt1 (n m l : nat) (lpdf : M RO m 1 -> M RO m 1 -> M RO m m -> R) z R H (g g' : kf RO n m l) :
  (forall x y S, (lpdf x y S < 0)%R) -> kf_update z R H g = (g', None) -> (0 <= (fst (kf_likelihood lpdf 0%R g') : Rdefinitions.R) < 1)%R.
Proof.
  intros hl E. apply caches_none in E. unfold kf_likelihood, kf_log_likelihood. destruct E as [-> ->]. cbv zeta. cbn [fst].
  set (v := lpdf _ _ _). change (sexp RO v) with (exp v).
  assert (h : (exp v < 1)%R) by (rewrite <- exp_0; apply exp_increasing; apply hl). pose proof (exp_pos v) as h'.
  match goal with |- context [if ?b then _ else _] => destruct b end; lra.
Qed.
Lemma bank_lik z R H g g' : f_update bank_filt z R H g = (g', None) -> (0 <= (fst (f_lik bank_filt g') : Rdefinitions.R) < 1)%R.
Proof. intros Eu. refine (@lik_lt1 1 1 1 (fun _ _ _ => (-1)%R) _ _ _ _ _ _ Eu). intros. lra. Qed.
Lemma bank_p (p : M RO 1 2) : mget p 0 0 = 1%R -> mget p 0 1 = 0%R -> forall j, j < 2 -> mget p 0 j = 0%R \/ mget p 0 j = 1%R.
Proof. intros h0 h1 [|[|j]] hj; [right; exact h0|left; exact h1|lia]. Qed.
Lemma bank_lost (s : mmae RO 1 1 (kf RO 1 1 1) 2) z H s' :
  length (a_filters s) = 2 -> mget (a_p s : M RO 1 2) 0 0 = 1%R -> mget (a_p s : M RO 1 2) 0 1 = 0%R ->
  mmae_dt_update (o := RO) rtrunc bank_filt Int (Some z) None H s = (s', Some TypeError) ->
  snd (mmae_update bank_filt (Some z) None H s) = None ->
  forall j, j < 2 -> mget (a_p s' : M RO 1 2) 0 j = 0%R.
Proof.
  intros hl h0 h1 E En.
  exact (C77_mmae_integer_lost_refuted 1 1 1 _ bank_filt 2 (Some z) None H s s' (bank_lik _ _ _) hl (bank_p _ h0 h1) E En).
Qed.
Definition bank_f : kf RO 1 1 1 := kf_init (o := RO) 1 1 1 0%R (fun S => Some [[(/ mget S 0 0)%R]]).
Definition bank_s := mmae_init (o := RO) bank_filt (N := 2) bank_f [bank_f; bank_f] [[1; 0]]%R None None.
Lemma bank_none : snd (mmae_update bank_filt (Some [[4%R]]) None None bank_s) = None.
Proof. lazy. reflexivity. Qed.
Example C77_mmae_example : exists s', mmae_dt_update (o := RO) rtrunc bank_filt Int (Some [[4%R]]) None None bank_s = (s', Some TypeError) /\
  mget (a_p s') 0 0 = 0%R /\ mget (a_p s') 0 1 = 0%R.
Proof.
  destruct (mmae_dt_update (o := RO) rtrunc bank_filt Int (Some [[4%R]]) None None bank_s) as [s' e] eqn:E. exists s'.
  destruct (@C77_mmae_integer_refuted RO rtrunc 1 1 1 _ bank_filt 2 _ _ _ _ _ _ E) as [He _]. rewrite bank_none in He. subst e.
  pose proof (bank_lost bank_s [[4%R]] None s' eq_refl eq_refl eq_refl E bank_none) as h.
  split; [reflexivity|]. split; apply h; lia.
Qed.
