(** * C85: when the g-h filters divide by zero, and what is left then. *)
From Coq Require Import List Reals Lra Lia Psatz Arith Bool Floats.
From Verif Require Import Ops ListOps RealOps Model_GH Model_GHDiv Prop_GH Prop_Stab.
Import ListNotations.
Open Scope R_scope.

Lemma pdiv_ok (a b : R) : b <> 0 -> pdiv RS a b = Ok (a / b).
Proof. intros h. unfold pdiv. cbn [seqb s0 RS]. destruct (Reqb b 0) eqn:E; [apply Reqb_true in E; contradiction|reflexivity]. Qed.
Lemma pdiv_err (a b : R) : b = 0 -> pdiv RS a b = Err ZeroDivisionError.
Proof. intros h. unfold pdiv. cbn [seqb s0 RS]. destruct (Reqb b 0) eqn:E; [reflexivity|apply Reqb_false in E; contradiction]. Qed.

(** ** GHFilter *)
(** update raises exactly if dt = 0, and then changes neither estimate: only the prediction and the residual are renewed.
    Otherwise it is the update of Model_GH. *)
Theorem C85_gh_update : forall (z : R) (g h : option R) (s : gh RS),
  (gh_dt s <> 0 -> gh_update_py (o:=RS) z g h s = (gh_update (o:=RS) z g h s, None)) /\
  (gh_dt s = 0 -> exists s', gh_update_py (o:=RS) z g h s = (s', Some ZeroDivisionError) /\
     (gh_x s', gh_dx s', gh_dt s', gh_g s', gh_h s', gh_z s') = (gh_x s, gh_dx s, gh_dt s, gh_g s, gh_h s, gh_z s) /\
     (gh_x_prediction s', gh_dx_prediction s', gh_y s') = (gh_x s, gh_dx s, z - gh_x s)).
Proof.
  intros z g h s. split; intros hd; unfold gh_update_py.
  - rewrite pdiv_ok by exact hd. reflexivity.
  - rewrite pdiv_err by exact hd. eexists. split; [reflexivity|]. split; [reflexivity|]. cbn. rewrite hd.
    rewrite Rmult_0_r, Rplus_0_r. reflexivity.
Qed.
Print Assumptions C85_gh_update.
(** So a program that catches the exceptions keeps the first x and dx for ever. *)
Theorem C85_gh_stuck : forall (zs : list (R * option R * option R)) (s : gh RS), gh_dt s = 0 ->
  let s' := fold_left (fun s m => fst (gh_update_py (o:=RS) (fst (fst m)) (snd (fst m)) (snd m) s)) zs s in
  gh_x s' = gh_x s /\ gh_dx s' = gh_dx s.
Proof.
  induction zs as [|[[z g] h] zs IH]; intros s hd s'; [split; reflexivity|]. unfold s'. cbn [fold_left fst snd].
  destruct (proj2 (C85_gh_update z g h s) hd) as [s1 [E [E1 _]]]. rewrite E. cbn [fst]. injection E1 as a b c _ _ _.
  destruct (IH s1) as [h1 h2]; [congruence|]. split; [rewrite h1; exact a|rewrite h2; exact b].
Qed.
Print Assumptions C85_gh_stuck.
(** batch_filter raises exactly if dt = 0, even for no data. *)
Theorem C85_gh_batch : forall (data : list R) (s : gh RS),
  gh_batch_py (o:=RS) data s = Err ZeroDivisionError /\ gh_dt s = 0 \/ gh_batch_py (o:=RS) data s = Ok (gh_batch (o:=RS) data s) /\ gh_dt s <> 0.
Proof.
  intros data s. unfold gh_batch_py, gh_batch. destruct (Req_dec (gh_dt s) 0) as [h|h].
  - left. rewrite pdiv_err by exact h. split; [reflexivity|exact h].
  - right. rewrite pdiv_ok by exact h. split; [|exact h]. change (sdiv RS) with Rdiv. cbn [sc RS].
    destruct (gh_batch_loop _ _ _ _ _ _). reflexivity.
Qed.
Print Assumptions C85_gh_batch.
(** The variance reduction factors of a filter that locks on are always available.  On the border of the stable region, and for g = 0, they raise. *)
Theorem C85_gh_VRF : forall (s : gh RS), gh_dt s <> 0 ->
  (gh_locks_on (gh_dt s) (gh_g s) (gh_h s) ->
     gh_VRF_py s = Ok (gh_VRF s) /\ gh_VRF_prediction_py s = Ok (gh_VRF_prediction s)) /\
  (gh_g s = 0 \/ 2 * gh_g s + gh_h s = 4 <-> gh_VRF_py s = Err ZeroDivisionError) /\
  (gh_g s = 0 \/ 2 * gh_g s + gh_h s = 4 <-> gh_VRF_prediction_py s = Err ZeroDivisionError).
Proof.
  intros s hd.
  assert (D : gh_g s * (4 - 2 * gh_g s - gh_h s) = 0 <-> gh_g s = 0 \/ 2 * gh_g s + gh_h s = 4).
  { split; [intros E; apply Rmult_integral in E; destruct E; [left; lra|right; lra]|intros [E|E]; [rewrite E; ring|]].
    replace (4 - 2 * gh_g s - gh_h s) with 0 by lra. ring. }
  assert (N : gh_g s * (4 - 2 * gh_g s - gh_h s) <> 0 -> gh_dt s * gh_dt s * (gh_g s * (4 - 2 * gh_g s - gh_h s)) <> 0).
  { intros h. repeat (apply Rmult_integral_contrapositive_currified; try assumption). }
  assert (V : gh_g s * (4 - 2 * gh_g s - gh_h s) <> 0 -> gh_VRF_py s = Ok (gh_VRF s) /\ gh_VRF_prediction_py s = Ok (gh_VRF_prediction s)).
  { intros h. pose proof (N h) as h'. unfold gh_VRF_py, gh_VRF_prediction_py, gh_VRF, gh_VRF_prediction. rs. rewrite (pdiv_ok _ _ h), (pdiv_ok _ _ h), (pdiv_ok _ _ h'). split; reflexivity. }
  assert (W : gh_g s * (4 - 2 * gh_g s - gh_h s) = 0 -> gh_VRF_py s = Err ZeroDivisionError /\ gh_VRF_prediction_py s = Err ZeroDivisionError).
  { intros h. unfold gh_VRF_py, gh_VRF_prediction_py. rs. rewrite !pdiv_err by assumption. split; reflexivity. }
  destruct (Req_dec (gh_g s * (4 - 2 * gh_g s - gh_h s)) 0) as [E|E].
  - destruct (W E) as [W1 W2]. apply D in E. split; [|tauto]. intros L. apply C69_gh_stability_region in L; [|exact hd]. lra.
  - destruct (V E) as [V1 V2]. rewrite V1, V2. split; [auto|]. split; (split; [tauto|discriminate]).
Qed.
Print Assumptions C85_gh_VRF.

(** ** GHKFilter *)
Theorem C85_ghk_update : forall (z : R) (g h k : option R) (s : ghk RS),
  (ghk_dt s <> 0 -> ghk_update_py (o:=RS) z g h k s = (ghk_update (o:=RS) z g h k s, None)) /\
  (ghk_dt s = 0 -> exists s', ghk_update_py (o:=RS) z g h k s = (s', Some ZeroDivisionError) /\
     (ghk_x s', ghk_dx s', ghk_ddx s', ghk_dt s', ghk_g s', ghk_h s', ghk_k s', ghk_z s') =
     (ghk_x s, ghk_dx s, ghk_ddx s, ghk_dt s, ghk_g s, ghk_h s, ghk_k s, ghk_z s) /\
     (ghk_x_prediction s', ghk_dx_prediction s', ghk_ddx_prediction s', ghk_y s') = (ghk_x s, ghk_dx s, ghk_ddx s, z - ghk_x s)).
Proof.
  intros z g h k s. split; intros hd; unfold ghk_update_py; cbv zeta.
  - rewrite (pdiv_ok _ (spow RS (ghk_dt s) 2)); [|cbn; nra]. rewrite pdiv_ok by exact hd. reflexivity.
  - rewrite (pdiv_err _ (spow RS (ghk_dt s) 2)); [|cbn; rewrite hd; ring]. eexists. split; [reflexivity|]. split; [reflexivity|]. rs. rewrite hd.
    rewrite !Rmult_0_r, !Rplus_0_r. reflexivity.
Qed.
Print Assumptions C85_ghk_update.
Theorem C85_ghk_stuck : forall (zs : list (R * (option R * option R * option R))) (s : ghk RS), ghk_dt s = 0 ->
  let s' := fold_left (fun s m => let '(z, (g, h, k)) := m in fst (ghk_update_py (o:=RS) z g h k s)) zs s in
  ghk_x s' = ghk_x s /\ ghk_dx s' = ghk_dx s /\ ghk_ddx s' = ghk_ddx s.
Proof.
  induction zs as [|[z [[g h] k]] zs IH]; intros s hd s'; [repeat split|]. unfold s'. cbn [fold_left].
  destruct (proj2 (C85_ghk_update z g h k s) hd) as [s1 [E [E1 _]]]. rewrite E. cbn [fst]. injection E1 as a b c e _ _ _ _.
  destruct (IH s1) as (h1 & h2 & h3); [congruence|]. split; [rewrite h1; exact a|split; [rewrite h2; exact b|rewrite h3; exact c]].
Qed.
Print Assumptions C85_ghk_stuck.
Theorem C85_ghk_batch : forall (data : list R) (s : ghk RS),
  ghk_batch_py (o:=RS) data s = Err ZeroDivisionError /\ ghk_dt s = 0 \/ ghk_batch_py (o:=RS) data s = Ok (ghk_batch (o:=RS) data s) /\ ghk_dt s <> 0.
Proof.
  intros data s. unfold ghk_batch_py, ghk_batch. destruct (Req_dec (ghk_dt s) 0) as [h|h].
  - left. rewrite pdiv_err by exact h. split; [reflexivity|exact h].
  - right. rewrite pdiv_ok by exact h. split; [|exact h]. change (sdiv RS) with Rdiv. cbn [sc RS].
    destruct (gh_batch_loop _ _ _ _ _ _). reflexivity.
Qed.
Print Assumptions C85_ghk_batch.
(** For a filter that locks on VRF_prediction and bias_error never raise, and VRF raises exactly where its first denominator vanishes. *)
Theorem C85_ghk_VRF : forall (dddx : R) (s : ghk RS), ghk_dt s <> 0 -> ghk_locks_on (ghk_dt s) (ghk_g s) (ghk_h s) (ghk_k s) ->
  ghk_VRF_prediction_py s = Ok (ghk_VRF_prediction s) /\ ghk_bias_error_py (o:=RS) dddx s = Ok (ghk_bias_error (o:=RS) dddx s) /\
  let den := 2 * ghk_k s - ghk_g s * (ghk_h s + ghk_k s) * (4 - 2 * ghk_g s - ghk_h s) in
  (den <> 0 -> ghk_VRF_py s = Ok (ghk_VRF s)) /\ (den = 0 -> ghk_VRF_py s = Err ZeroDivisionError).
Proof.
  intros dddx s hd L. apply C69_ghk_stability_region in L; [|exact hd]. destruct L as (g0 & gh4 & k0 & kg).
  assert (h0 : 0 < ghk_h s) by nra.
  assert (d1 : 0 < 2 * ghk_k s - ghk_g s * (ghk_h s + ghk_k s) * (2 * ghk_g s + ghk_h s - 4)).
  { assert (0 < ghk_g s * (ghk_h s + ghk_k s)) by (apply Rmult_lt_0_compat; lra). nra. }
  assert (d2 : 0 < (4 - 2 * ghk_g s - ghk_h s) * (ghk_g s * ghk_h s + ghk_g s * ghk_k s - 2 * ghk_k s)) by (apply Rmult_lt_0_compat; lra).
  split; [|split].
  - unfold ghk_VRF_prediction_py, ghk_VRF_prediction. rs. rewrite pdiv_ok by lra. reflexivity.
  - unfold ghk_bias_error_py, ghk_bias_error. rs. rewrite pdiv_ok by lra. reflexivity.
  - intros den. split; intros h; unfold ghk_VRF_py, ghk_VRF; rs; fold den.
    + rewrite (pdiv_ok _ den h). rewrite pdiv_ok by lra. rewrite pdiv_ok; [reflexivity|].
      rewrite Rmult_assoc. apply Rmult_integral_contrapositive_currified; [|lra].
      repeat (apply Rmult_integral_contrapositive_currified; try assumption).
    + rewrite (pdiv_err _ den h). reflexivity.
Qed.
Print Assumptions C85_ghk_VRF.
(** It does vanish for a filter that locks on. *)
Theorem C85_ghk_VRF_refuted : exists s : ghk RS, ghk_dt s = 1 /\ ghk_locks_on (ghk_dt s) (ghk_g s) (ghk_h s) (ghk_k s) /\
  ghk_VRF_py s = Err ZeroDivisionError.
Proof.
  exists (ghk_init (o:=RS) 0 0 0 1 1 (3/2) (1/2)). set (s := ghk_init _ _ _ _ _ _ _).
  assert (L : ghk_locks_on (ghk_dt s) (ghk_g s) (ghk_h s) (ghk_k s)) by (apply C69_ghk_stability_region; cbn; lra).
  split; [reflexivity|]. split; [exact L|]. apply (proj2 (proj2 (C85_ghk_VRF 0 s ltac:(cbn; lra) L))). cbn. lra.
Qed.
Print Assumptions C85_ghk_VRF_refuted.

(** In binary64 a dt that is not zero is not enough: dt ** 2 underflows.  GHFilter.update with the same dt does not raise. *)
Theorem C85_underflow_refuted :
  let S := floatS (fun x => x) (fun x => x) in let dt := 0x1p-600%float in
  (0 <? dt)%float = true /\
  snd (ghk_update_py (o:=S) 1%float None None None (ghk_init (o:=S) 0%float 0%float 0%float dt 0.5%float 0.25%float 0.125%float)) = Some ZeroDivisionError /\
  snd (gh_update_py (o:=S) 1%float None None (gh_init (o:=S) 0%float 0%float dt 0.5%float 0.25%float)) = None.
Proof. vm_compute. repeat split. Qed.
Print Assumptions C85_underflow_refuted.

(** GHFilterOrder keeps x in a NumPy array and does not raise: with the same dt = 0 the first update makes the velocity infinite, the second
    both entries NaN. *)
Theorem C85_order_refuted :
  let S := floatS (fun x => x) (fun x => x) in
  match gho_init (o:=S) (inr [1; 0]%float) 0%float false 1 0.5%float (Some 0.25%float) None with
  | Err _ => False
  | Ok s =>
      let r1 := gho_update (o:=S) 3%float None None None s in let r2 := gho_update (o:=S) 3%float None None None (fst r1) in
      snd r1 = None /\ gho_x (fst r1) = [2; infinity]%float /\ snd r2 = None /\ forallb is_nan (gho_x (fst r2)) = true
  end /\
  snd (gh_update_py (o:=S) 3%float None None (gh_init (o:=S) 1%float 0%float 0%float 0.5%float 0.25%float)) = Some ZeroDivisionError.
Proof. vm_compute. repeat split. Qed.
Print Assumptions C85_order_refuted.

(** ** Benedict-Bordner gains *)
Theorem C85_benedict_bordner : forall (g : R) (critical : bool), (critical = true -> -1 <= g <= 1) ->
  let bad := if critical then g = 0 else g = 2 in
  (bad -> benedict_bornder_py RS g critical = Err ZeroDivisionError) /\
  (~ bad -> benedict_bornder_py RS g critical = Ok (benedict_bornder_constants (o:=RS) g critical)).
Proof.
  intros g critical _ bad. unfold benedict_bornder_py, benedict_bornder_constants, bad. destruct critical; rs; split; intros h.
  - rewrite pdiv_err by (rewrite h; ring). reflexivity.
  - rewrite pdiv_ok by nra. reflexivity.
  - rewrite pdiv_err by lra. reflexivity.
  - rewrite pdiv_ok by lra. reflexivity.
Qed.
Print Assumptions C85_benedict_bordner.
(** So over the gains for which the filter can be stable (0 < g <= 1) they never raise, and neither do the variance reduction factors of the filter made from them. *)
Theorem C85_benedict_bordner_usable : forall (g dt : R) (critical : bool), 0 < g <= 1 -> dt <> 0 ->
  exists h, benedict_bornder_py RS g critical = Ok (g, h) /\
  (critical = false -> exists v p, gh_VRF_py (gh_init (o:=RS) 0 0 dt g h) = Ok v /\ gh_VRF_prediction_py (gh_init (o:=RS) 0 0 dt g h) = Ok p).
Proof.
  intros g dt critical hg hd. destruct (C85_benedict_bordner g critical) as [_ h]; [lra|].
  exists (snd (benedict_bornder_constants (o:=RS) g critical)). split.
  - rewrite h; [destruct critical; reflexivity|]. destruct critical; lra.
  - intros ->. destruct (C85_gh_VRF (gh_init (o:=RS) 0 0 dt g (snd (benedict_bornder_constants (o:=RS) g false))) hd) as [H _].
    destruct H as [H1 H2]; [|eauto]. apply C69_gh_stability_region; [exact hd|].
    cbn [gh_g gh_h gh_init]. unfold benedict_bornder_constants. rs. split; [lra|].
    assert (0 < g * g / (2 - g)) by (apply Rdiv_lt_0_compat; nra).
    split; [lra|]. apply Rmult_lt_reg_r with (2 - g); [lra|].
    replace ((2 * g + g * g / (2 - g)) * (2 - g)) with (2 * g * (2 - g) + g * g) by (field; lra). nra.
Qed.
Print Assumptions C85_benedict_bordner_usable.

(** Filters that meet the hypotheses: a g-h filter that locks on, with its factors; a g-h-k filter that locks on and whose VRF is available; and a
    filter made with dt = 0, whose update raises. *)
Example C85_applies :
  let s := gh_init (o:=RS) 3 1 1 (1/2) (1/4) in let k := ghk_init (o:=RS) 0 0 0 1 (1/2) (1/4) (1/16) in let s0 := gh_init (o:=RS) 3 1 0 (1/2) (1/4) in
  gh_locks_on 1 (gh_g s) (gh_h s) /\ gh_VRF_py s = Ok (5/11, 1/11) /\
  ghk_locks_on 1 (ghk_g k) (ghk_h k) (ghk_k k) /\ 2 * ghk_k k - ghk_g k * (ghk_h k + ghk_k k) * (4 - 2 * ghk_g k - ghk_h k) <> 0 /\
  gh_y s0 = 0 /\ snd (gh_update_py (o:=RS) 5 None None s0) = Some ZeroDivisionError /\ gh_y (fst (gh_update_py (o:=RS) 5 None None s0)) = 2.
Proof.
  intros s k s0. assert (L : gh_locks_on 1 (gh_g s) (gh_h s)) by (apply C69_gh_stability_region; cbn; lra).
  split; [exact L|]. split; [|split; [|split; [|split]]].
  - destruct (C85_gh_VRF s) as [[H _] _]; [cbn; lra|exact L|]. rewrite H. unfold gh_VRF, s, gh_init. rs. cbn [gh_g gh_h gh_dt]. f_equal. f_equal; field.
  - apply C69_ghk_stability_region; cbn; lra.
  - cbn. lra.
  - reflexivity.
  - destruct (proj2 (C85_gh_update 5 None None s0) eq_refl) as [s' [E [_ E2]]].
    change (gh_update_py (o:=RS) 5 None None s0 = (s', Some ZeroDivisionError)) in E. rewrite E. cbn [fst snd]. split; [reflexivity|].
    injection E2 as _ _ E3. rewrite E3. cbn. lra.
Qed.
