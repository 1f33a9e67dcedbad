(** * C69: exactly which gains make the g-h and g-h-k filters forget their start. *)
From Coq Require Import List Reals Lra Lia Psatz Arith Bool.
From Verif Require Import Ops RealOps Model_GH Spec_GH Proof_Stab Prop_GH.
Import ListNotations.
Open Scope R_scope.

(** After n noise-free measurements of a target at p moving with velocity v (and
    acceleration a), with the filter's own gains. *)
Definition gh_after (p v : R) (n : nat) (s : gh RS) : gh RS :=
  gh_run (line_meas p v (gh_dt s) (repeat (0, None, None) n)) s.
Definition ghk_after (p v a : R) (n : nat) (s : ghk RS) : ghk RS :=
  ghk_run (quad_meas p v a (ghk_dt s) (repeat (0, (None, None, None)) n)) s.

(** All estimates approach the target, wherever it is and whatever the start. *)
Definition gh_locks_on (dt g h : R) : Prop :=
  forall (s : gh RS) (p v : R), gh_dt s = dt -> gh_g s = g -> gh_h s = h ->
  Un_cv (fun n => gh_x (gh_after p v n s) - (p + v * (INR n * dt))) 0 /\
  Un_cv (fun n => gh_dx (gh_after p v n s) - v) 0.
Definition ghk_locks_on (dt g h k : R) : Prop :=
  forall (s : ghk RS) (p v a : R), ghk_dt s = dt -> ghk_g s = g -> ghk_h s = h -> ghk_k s = k ->
  Un_cv (fun n => ghk_x (ghk_after p v a n s) - (p + v * (INR n * dt) + a * (INR n * dt) ^ 2 / 2)) 0 /\
  Un_cv (fun n => ghk_dx (ghk_after p v a n s) - (v + a * (INR n * dt))) 0 /\
  Un_cv (fun n => ghk_ddx (ghk_after p v a n s) - a) 0.

(** ** The g-h filter *)
Definition gh_e (n : nat) (s : gh RS) : gh RS := gh_run (repeat (0, None, None) n) s.

Lemma gh_e_const n s : gh_dt (gh_e n s) = gh_dt s /\ gh_g (gh_e n s) = gh_g s /\ gh_h (gh_e n s) = gh_h s.
Proof. revert s. induction n as [|n IH]; intros s; [easy|]. apply (IH (gh_update (o:=RS) 0 None None s)). Qed.

Lemma gh_e_S n s : gh_e (S n) s = gh_update (o:=RS) 0 None None (gh_e n s).
Proof.
  revert s. induction n as [|n IH]; intros s; [reflexivity|].
  change (gh_e (S (S n)) s) with (gh_e (S n) (gh_update (o:=RS) 0 None None s)). rewrite IH. reflexivity.
Qed.

(** The predicted position error obeys the characteristic recurrence. *)
Lemma gh_e_rec (s : gh RS) : gh_dt s <> 0 ->
  let t := 2 - gh_g s - gh_h s in let d := 1 - gh_g s in
  rec2 t d (fun n => gh_x (gh_e n s)) /\ rec2 t d (fun n => gh_dx (gh_e n s)).
Proof.
  intros Hdt t d. unfold t, d.
  split; intros n; rewrite !gh_e_S; pose proof (gh_e_const n s) as (E1 & E2 & E3);
    cbn; rewrite E1, E2, E3; field; exact Hdt.
Qed.

Theorem C69_gh_stability_region : forall dt g h : R, dt <> 0 ->
  gh_locks_on dt g h <-> 0 < g /\ 0 < h /\ 2 * g + h < 4.
Proof.
  intros dt g h Hdt.
  assert (J : schur2 (2 - g - h) (1 - g) <-> 0 < g /\ 0 < h /\ 2 * g + h < 4) by (unfold schur2; lra).
  rewrite <- J. clear J. split.
  - intros L. apply vanishes_rec2. intros u Hu.
    (* the filter whose predicted position errors are u *)
    set (x := 2 * u O - (u 1%nat + (g + h) * u O)). set (dx := ((u 1%nat + (g + h) * u O) - u O) / dt).
    set (s := gh_init (o:=RS) x dx dt g h).
    destruct (L s 0 0 eq_refl eq_refl eq_refl) as [Lx Ld].
    assert (E : forall n, u n = gh_x (gh_e n s) + dt * gh_dx (gh_e n s)).
    { destruct (gh_e_rec s Hdt) as [R1 R2]. change (gh_g s) with g in *. change (gh_h s) with h in *.
      assert (G : forall n, u n = gh_x (gh_e n s) + dt * gh_dx (gh_e n s) /\
                  u (S n) = gh_x (gh_e (S n) s) + dt * gh_dx (gh_e (S n) s)).
      { induction n as [|n [I1 I2]].
        - split; cbn; unfold x, dx; field; exact Hdt.
        - split; [exact I2|]. rewrite (Hu n), (R1 n), (R2 n), I1, I2. ring. }
      intros n. apply G. }
    apply (vanishes_ext (fun n => 1 * gh_x (gh_e n s) + dt * gh_dx (gh_e n s))); [intros n; rewrite E; ring|].
    assert (T : forall n, gh_x (gh_after 0 0 n s) = gh_x (gh_e n s) /\ gh_dx (gh_after 0 0 n s) = gh_dx (gh_e n s)).
    { intros n. destruct (C34_error_recursion (repeat (0, None, None) n) 0 0 s) as (h1 & h2 & _).
      fold (gh_after 0 0 n s) in h1, h2. cbn zeta in h1, h2.
      replace (gh_err 0 0 s) with s in h1, h2 by (unfold gh_err, s, gh_init; cbn; f_equal; ring).
      fold (gh_e n s) in h1, h2. cbn in h1, h2 |- *. lra. }
    apply vanishes_lin.
    + refine (vanishes_ext _ _ _ Lx). intros n. cbn. rewrite (proj1 (T n)). ring.
    + refine (vanishes_ext _ _ _ Ld). intros n. cbn. rewrite (proj2 (T n)). ring.
  - intros St s p v <- <- <-. set (s' := gh_err p v s).
    assert (T : forall n, gh_x (gh_after p v n s) - (p + v * (INR n * gh_dt s)) = gh_x (gh_e n s') /\
                          gh_dx (gh_after p v n s) - v = gh_dx (gh_e n s')).
    { intros n. destruct (C34_error_recursion (repeat (0, None, None) n) p v s) as (h1 & h2 & _).
      cbn zeta in h1, h2. rewrite repeat_length in h1. split; [exact h1|exact h2]. }
    destruct (gh_e_rec s' Hdt) as [R1 R2].
    pose proof (proj2 (rec2_stable _ _) St) as V.
    split; [apply (vanishes_ext (fun n => gh_x (gh_e n s')))|apply (vanishes_ext (fun n => gh_dx (gh_e n s')))];
      try (intros n; symmetry; apply T); apply V; assumption.
Qed.
Print Assumptions C69_gh_stability_region.

(** ** The g-h-k filter *)
Definition ghk_e (n : nat) (s : ghk RS) : ghk RS := ghk_run (repeat (0, (None, None, None)) n) s.

Lemma ghk_e_const n s : ghk_dt (ghk_e n s) = ghk_dt s /\ ghk_g (ghk_e n s) = ghk_g s /\
  ghk_h (ghk_e n s) = ghk_h s /\ ghk_k (ghk_e n s) = ghk_k s.
Proof. revert s. induction n as [|n IH]; intros s; [easy|]. apply (IH (ghk_update (o:=RS) 0 None None None s)). Qed.

Lemma ghk_e_S n s : ghk_e (S n) s = ghk_update (o:=RS) 0 None None None (ghk_e n s).
Proof.
  revert s. induction n as [|n IH]; intros s; [reflexivity|].
  change (ghk_e (S (S n)) s) with (ghk_e (S n) (ghk_update (o:=RS) 0 None None None s)). rewrite IH. reflexivity.
Qed.

Lemma ghk_e_step n (s : ghk RS) :
  let e := ghk_e n s in let dt := ghk_dt s in
  let y := ghk_x e + ghk_dx e * dt + ghk_ddx e * dt ^ 2 / 2 in
  ghk_x (ghk_e (S n) s) = y - ghk_g s * y /\
  ghk_dx (ghk_e (S n) s) = ghk_dx e + ghk_ddx e * dt - ghk_h s * y / dt /\
  ghk_ddx (ghk_e (S n) s) = ghk_ddx e - 2 * ghk_k s * y / dt ^ 2.
Proof.
  cbn zeta. rewrite ghk_e_S. destruct (ghk_e_const n s) as (E1 & E2 & E3 & E4).
  unfold ghk_update. cbn [ghk_x ghk_dx ghk_ddx]. unfold half. rs. rewrite E1, E2, E3, E4.
  repeat split; cbn [pow]; unfold Rdiv; rewrite ?Rmult_1_r; ring.
Qed.

Lemma ghk_e_rec (s : ghk RS) : ghk_dt s <> 0 ->
  let a := ghk_g s + ghk_h s + ghk_k s - 3 in let b := 3 - 2 * ghk_g s - ghk_h s + ghk_k s in let c := ghk_g s - 1 in
  rec3 a b c (fun n => ghk_x (ghk_e n s)) /\ rec3 a b c (fun n => ghk_dx (ghk_e n s)) /\
  rec3 a b c (fun n => ghk_ddx (ghk_e n s)).
Proof.
  intros Hdt a b c. unfold a, b, c.
  repeat split; intros n;
    destruct (ghk_e_step (S (S n)) s) as (A1 & A2 & A3); destruct (ghk_e_step (S n) s) as (B1 & B2 & B3);
    destruct (ghk_e_step n s) as (C1 & C2 & C3); cbn zeta in *;
    rewrite ?A1, ?A2, ?A3, ?B1, ?B2, ?B3, ?C1, ?C2, ?C3; field; exact Hdt.
Qed.

Theorem C69_ghk_stability_region : forall dt g h k : R, dt <> 0 ->
  ghk_locks_on dt g h k <-> 0 < g < 2 /\ 2 * g + h < 4 /\ 0 < k /\ k * (2 - g) < g * h.
Proof.
  intros dt g h k Hdt.
  assert (J : jury3 (g + h + k - 3) (3 - 2 * g - h + k) (g - 1) <->
              0 < g < 2 /\ 2 * g + h < 4 /\ 0 < k /\ k * (2 - g) < g * h).
  { unfold jury3.
    replace (1 - (g - 1) * (g - 1) - (3 - 2 * g - h + k - (g - 1) * (g + h + k - 3))) with (g * h - k * (2 - g)) by ring.
    lra. }
  rewrite <- J. clear J. split.
  - intros L. apply rec3_stable. intros u Hu.
    (* the filter whose predicted position errors are u: positions 1, 2, 3 steps ahead *)
    set (q1 := u O). set (q2 := u 1%nat + (g + h + k) * q1).
    set (q3 := u 2%nat + (g + h + k) * u 1%nat + (g + 2 * h + 4 * k) * q1).
    set (ddx := (q3 - 2 * q2 + q1) / dt ^ 2).
    set (x := 3 * q1 - 3 * q2 + q3). set (dx := (- 5 / 2 * q1 + 4 * q2 - 3 / 2 * q3) / dt).
    set (s := ghk_init (o:=RS) x dx ddx dt g h k).
    destruct (L s 0 0 0 eq_refl eq_refl eq_refl eq_refl) as (Lx & Ld & La).
    set (y := fun n => ghk_x (ghk_e n s) + dt * ghk_dx (ghk_e n s) + dt ^ 2 / 2 * ghk_ddx (ghk_e n s)).
    assert (E : forall n, u n = y n).
    { destruct (ghk_e_rec s Hdt) as (R1 & R2 & R3).
      change (ghk_g s) with g in *. change (ghk_h s) with h in *. change (ghk_k s) with k in *.
      assert (I0 : u 0%nat = y 0%nat /\ u 1%nat = y 1%nat /\ u 2%nat = y 2%nat).
      { destruct (ghk_e_step 1 s) as (B1 & B2 & B3); destruct (ghk_e_step 0 s) as (C1 & C2 & C3). cbn zeta in *.
        change (ghk_x (ghk_e 0 s)) with x in *. change (ghk_dx (ghk_e 0 s)) with dx in *.
        change (ghk_ddx (ghk_e 0 s)) with ddx in *.
        change (ghk_g s) with g in *. change (ghk_h s) with h in *. change (ghk_k s) with k in *. change (ghk_dt s) with dt in *.
        unfold y. rewrite B1, B2, B3, C1, C2, C3.
        change (ghk_x (ghk_e 0 s)) with x in *. change (ghk_dx (ghk_e 0 s)) with dx in *.
        change (ghk_ddx (ghk_e 0 s)) with ddx in *.
        unfold x, dx, ddx, q3, q2, q1. repeat split; field; exact Hdt. }
      assert (G : forall n, u n = y n /\ u (S n) = y (S n) /\ u (S (S n)) = y (S (S n))).
      { induction n as [|n (I1 & I2 & I3)]; [exact I0|].
        split; [exact I2|]. split; [exact I3|].
        specialize (Hu n). specialize (R1 n). specialize (R2 n). specialize (R3 n). cbn beta in *.
        rewrite I1, I2, I3 in Hu. unfold y in Hu |- *. nra. }
      intros n. apply G. }
    assert (T : forall n, ghk_x (ghk_after 0 0 0 n s) = ghk_x (ghk_e n s) /\ ghk_dx (ghk_after 0 0 0 n s) = ghk_dx (ghk_e n s) /\
                          ghk_ddx (ghk_after 0 0 0 n s) = ghk_ddx (ghk_e n s)).
    { intros n. destruct (C35_error_recursion (repeat (0, (None, None, None)) n) 0 0 0 s Hdt) as (h1 & h2 & h3 & _).
      fold (ghk_after 0 0 0 n s) in h1, h2, h3. cbn zeta in h1, h2, h3.
      replace (ghk_err 0 0 0 s) with s in h1, h2, h3 by (unfold ghk_err, s, ghk_init; cbn; f_equal; ring).
      fold (ghk_e n s) in h1, h2, h3. cbn in h1, h2, h3 |- *. lra. }
    apply (vanishes_ext (fun n => 1 * (1 * ghk_x (ghk_e n s) + dt * ghk_dx (ghk_e n s)) + dt ^ 2 / 2 * ghk_ddx (ghk_e n s)));
      [intros n; rewrite E; unfold y; ring|].
    apply vanishes_lin; [apply vanishes_lin|].
    + refine (vanishes_ext _ _ _ Lx). intros n. cbn. rewrite (proj1 (T n)). field.
    + refine (vanishes_ext _ _ _ Ld). intros n. cbn. rewrite (proj1 (proj2 (T n))). ring.
    + refine (vanishes_ext _ _ _ La). intros n. cbn. rewrite (proj2 (proj2 (T n))). ring.
  - intros St s p v a <- <- <- <-. set (s' := ghk_err p v a s).
    assert (T : forall n, ghk_x (ghk_after p v a n s) - (p + v * (INR n * ghk_dt s) + a * (INR n * ghk_dt s) ^ 2 / 2) = ghk_x (ghk_e n s') /\
                          ghk_dx (ghk_after p v a n s) - (v + a * (INR n * ghk_dt s)) = ghk_dx (ghk_e n s') /\
                          ghk_ddx (ghk_after p v a n s) - a = ghk_ddx (ghk_e n s')).
    { intros n. destruct (C35_error_recursion (repeat (0, (None, None, None)) n) p v a s Hdt) as (h1 & h2 & h3 & _).
      cbn zeta in h1, h2, h3. rewrite repeat_length in h1, h2. split; [exact h1|split; [exact h2|exact h3]]. }
    destruct (ghk_e_rec s' Hdt) as (R1 & R2 & R3).
    pose proof (proj2 (rec3_stable _ _ _) St) as V.
    split; [|split]; [apply (vanishes_ext (fun n => ghk_x (ghk_e n s')))|apply (vanishes_ext (fun n => ghk_dx (ghk_e n s')))
      |apply (vanishes_ext (fun n => ghk_ddx (ghk_e n s')))];
      try (intros n; symmetry; apply T); apply V; assumption.
Qed.
Print Assumptions C69_ghk_stability_region.

(** ** The gain formulas *)

(** optimal_noise_smoothing: for every g strictly between 0 and 1 the returned gains
    are positive, leave g alone and make the filter lock on; for g = 0 and g = 1 it
    raises. *)
Theorem C69_optimal_noise_smoothing : forall g : R, 0 < g < 1 ->
  exists h k, optimal_noise_smoothing (o:=RS) g = Ok (g, h, k) /\ 0 < h /\ 0 < k /\
    forall dt, dt <> 0 -> ghk_locks_on dt g h k.
Proof.
  intros g Hg. unfold optimal_noise_smoothing. cbn [seqb RS].
  rewrite (proj2 (Reqb_false _ _)) by (rs; lra). rewrite (proj2 (Reqb_false _ _)) by (rs; lra).
  eexists. eexists. split; [reflexivity|]. rs.
  set (D := 4 * (g * (g * (g * (g * (g * g))))) - 64 * (g * (g * (g * (g * g)))) + 64 * (g * (g * (g * g)))).
  set (h := (2 * (g * (g * g)) - 4 * (g * g) + sqrt D) / (8 * (1 - g))).
  assert (g4 : 0 < g * g * (g * g)) by (repeat apply Rmult_lt_0_compat; lra).
  assert (HD : 0 < D).
  { unfold D. replace (_ + _) with (4 * ((g * g * (g * g)) * (g * g + 16 * (1 - g)))) by ring.
    assert (0 < g * g + 16 * (1 - g)) by nra. assert (0 < g * g * (g * g) * (g * g + 16 * (1 - g))) by (apply Rmult_lt_0_compat; assumption). lra. }
  (* h is the positive root of q *)
  set (q := fun x : R => 4 * (1 - g) * (x * x) + 2 * (g * g) * (2 - g) * x - 3 * (g * g * (g * g))).
  assert (Q : q h = 0).
  { pose proof (sqrt_sqrt D (Rlt_le _ _ HD)) as W. unfold q, h.
    set (w := sqrt D) in *. clearbody w.
    transitivity ((w * w - D) / (16 * (1 - g))); [unfold D; field; lra|rewrite W; field; lra]. }
  assert (Hw : 2 * (g * g) * (2 - g) < sqrt D).
  { rewrite <- (sqrt_Rsqr (2 * (g * g) * (2 - g))) by (apply Rlt_le; repeat apply Rmult_lt_0_compat; lra).
    apply sqrt_lt_1; [apply Rle_0_sqr|lra|]. unfold Rsqr, D.
    assert (0 < g * g * (g * g) * (48 * (1 - g))) by (apply Rmult_lt_0_compat; lra). lra. }
  assert (Hh : 0 < h).
  { unfold h. apply Rdiv_lt_0_compat; lra. }
  clearbody h. clear Hw HD D.
  assert (gg : 0 < g * g) by nra.
  assert (mono : forall x, 0 < x -> (q x < 0 -> x < h) /\ (0 < q x -> h < x)).
  { intros x Hx.
    assert (F : q x - q h = (x - h) * (4 * (1 - g) * (x + h) + 2 * (g * g) * (2 - g))) by (unfold q; ring).
    assert (P : 0 < 4 * (1 - g) * (x + h) + 2 * (g * g) * (2 - g)).
    { apply Rplus_lt_0_compat; repeat apply Rmult_lt_0_compat; lra. }
    rewrite Q, Rminus_0_r in F. rewrite F. split; intros Z.
    - destruct (Rlt_dec x h) as [L|L]; [exact L|]. assert (0 <= (x - h) * (4 * (1 - g) * (x + h) + 2 * (g * g) * (2 - g))) by (apply Rmult_le_pos; lra). lra.
    - destruct (Rlt_dec h x) as [L|L]; [exact L|]. assert (0 <= (h - x) * (4 * (1 - g) * (x + h) + 2 * (g * g) * (2 - g))) by (apply Rmult_le_pos; lra). lra. }
  assert (L1 : g * g / (2 - g) < h).
  { apply mono; [apply Rdiv_lt_0_compat; lra|]. unfold q.
    replace (_ - _) with (- (g * g * (g * g) * (g * g) / ((2 - g) * (2 - g)))) by (field; lra).
    assert (0 < g * g * (g * g) * (g * g) / ((2 - g) * (2 - g))) by (apply Rdiv_lt_0_compat; apply Rmult_lt_0_compat; lra). lra. }
  assert (L2 : h < g * g * (2 - g) / (4 * (1 - g))).
  { apply mono; [apply Rdiv_lt_0_compat; [apply Rmult_lt_0_compat|]; lra|]. unfold q.
    replace (_ - _) with (3 * (g * g * (g * g) * (g * g)) / (4 * (1 - g))) by (field; lra).
    apply Rdiv_lt_0_compat; [assert (0 < g * g * (g * g) * (g * g)) by (apply Rmult_lt_0_compat; lra)|]; lra. }
  assert (L3 : h < 4 - 2 * g).
  { apply mono; [lra|]. unfold q.
    replace (_ - _) with (4 * ((2 - g) * (2 - g) * ((2 - g) * (2 - g))) - 3 * (g * g * (g * g))) by ring.
    assert (1 < (2 - g) * (2 - g)) by nra. assert (1 < (2 - g) * (2 - g) * ((2 - g) * (2 - g))) by nra.
    assert (g * g < 1) by nra. assert (g * g * (g * g) < 1) by nra. lra. }
  assert (K : g * g < h * (2 - g)).
  { apply (Rmult_lt_compat_r (2 - g)) in L1; [|lra]. replace (g * g / (2 - g) * (2 - g)) with (g * g) in L1 by (field; lra). exact L1. }
  assert (M : 4 * (1 - g) * h < g * g * (2 - g)).
  { apply (Rmult_lt_compat_r (4 * (1 - g))) in L2; [|lra].
    replace (g * g * (2 - g) / (4 * (1 - g)) * (4 * (1 - g))) with (g * g * (2 - g)) in L2 by (field; lra). lra. }
  split; [exact Hh|]. split.
  - apply Rdiv_lt_0_compat; lra.
  - intros dt Hdt. apply C69_ghk_stability_region; [exact Hdt|]. split; [lra|]. split; [lra|]. split.
    + apply Rdiv_lt_0_compat; lra.
    + apply (Rmult_lt_reg_r g); [lra|].
      replace ((h * (2 - g) - g * g) / g * (2 - g) * g) with ((h * (2 - g) - g * g) * (2 - g)) by (field; lra).
      nra.
Qed.
Print Assumptions C69_optimal_noise_smoothing.

Theorem C69_optimal_noise_smoothing_raises : forall g : R,
  optimal_noise_smoothing (o:=RS) g = Err ZeroDivisionError <-> g = 0 \/ g = 1.
Proof.
  intros g. unfold optimal_noise_smoothing. cbn [seqb RS].
  destruct (Reqb _ _) eqn:E1.
  - split; [|reflexivity]. intros _. apply Reqb_true in E1. revert E1. rs. lra.
  - apply Reqb_false in E1. destruct (Reqb g _) eqn:E2.
    + split; [|reflexivity]. intros _. apply Reqb_true in E2. revert E2. rs. lra.
    + apply Reqb_false in E2. split; [discriminate|]. revert E1 E2. rs. intros E1 E2 [->| ->]; exfalso; lra.
Qed.
Print Assumptions C69_optimal_noise_smoothing_raises.

(** critical_damping_parameters: the filter locks on for every theta < 1, and for
    theta = 1 (which the function accepts) it does not. *)
Theorem C69_critical_damping : forall (theta dt : R), dt <> 0 -> 0 <= theta <= 1 ->
  (exists g h, critical_damping_parameters (o:=RS) theta 2 = Ok (Gains2 (o:=RS) g h) /\
     (gh_locks_on dt g h <-> theta < 1)) /\
  (exists g h k, critical_damping_parameters (o:=RS) theta 3 = Ok (Gains3 (o:=RS) g h k) /\
     (ghk_locks_on dt g h k <-> theta < 1)).
Proof.
  intros w dt Hdt Hw. unfold critical_damping_parameters. cbn [sltb RS].
  rewrite (proj2 (Rltb_false _ _)) by (rs; lra). rewrite (proj2 (Rltb_false _ _)) by (rs; lra).
  cbn [orb Nat.eqb]. unfold three_halves, half. split.
  - eexists. eexists. split; [reflexivity|]. rewrite C69_gh_stability_region by exact Hdt. rs. split.
    + intros (A & _). nra.
    + intros L. repeat split; nra.
  - eexists. eexists. eexists. split; [reflexivity|]. rewrite C69_ghk_stability_region by exact Hdt. rs. split.
    + intros (_ & _ & K & _). destruct (Req_dec w 1) as [->|]; [exfalso; revert K; lra|lra].
    + intros L. set (u := 1 - w). assert (Hu : 0 < u <= 1) by (unfold u; lra).
      replace w with (1 - u) by (unfold u; ring). clearbody u. clear - Hu.
      assert (u2 : 0 < u * u) by nra. assert (u3 : 0 < u * u * u) by nra.
      assert (u * u <= u) by nra. assert (u * u * u <= u * u) by nra.
      repeat split; nra.
Qed.
Print Assumptions C69_critical_damping.

(** benedict_bornder_constants, both variants. *)
Theorem C69_benedict_bordner : forall (g dt : R) (critical : bool), dt <> 0 -> 0 < g <= 1 ->
  let c := benedict_bornder_constants (o:=RS) g critical in gh_locks_on dt (fst c) (snd c).
Proof.
  intros g dt critical Hdt Hg c. apply C69_gh_stability_region; [exact Hdt|].
  unfold c, benedict_bornder_constants. destruct critical; cbn [fst snd]; rs.
  - assert (Hs : 0 <= 1 - g * g) by nra.
    pose proof (sqrt_sqrt _ Hs) as W. pose proof (sqrt_pos (1 - g * g)) as P.
    set (s := sqrt _) in *. clearbody s.
    assert (L : s < 1) by nra.
    replace (4 / 5 * (2 - g * g - 2 * s) / (g * g)) with (4 / 5 * ((1 - s) / (1 + s))).
    2:{ replace (g * g) with ((1 - s) * (1 + s)) by lra. field. lra. }
    assert (0 < (1 - s) / (1 + s)) by (apply Rdiv_lt_0_compat; lra).
    assert ((1 - s) / (1 + s) <= 1).
    { apply (Rmult_le_reg_r (1 + s)); [lra|]. replace ((1 - s) / (1 + s) * (1 + s)) with (1 - s) by (field; lra). lra. }
    lra.
  - assert (0 < g * g / (2 - g)) by (apply Rdiv_lt_0_compat; nra).
    assert (g * g / (2 - g) <= 1).
    { apply (Rmult_le_reg_r (2 - g)); [lra|]. replace (g * g / (2 - g) * (2 - g)) with (g * g) by (field; lra). nra. }
    lra.
Qed.
Print Assumptions C69_benedict_bordner.

(** A start away from the target: position 5 and velocity 1 against 0, with g = 1/2,
    h = 1/6; and gains that look harmless but diverge. *)
Example C69_applies :
  gh_locks_on 1 (1 / 2) (1 / 6) /\ ~ gh_locks_on 1 (9 / 5) (1 / 2) /\ ~ ghk_locks_on 1 (1 / 2) (1 / 6) (1 / 4) /\
  gh_x (gh_after 0 0 0 (gh_init (o:=RS) 5 1 1 (1 / 2) (1 / 6))) = 5 /\
  exists h k, optimal_noise_smoothing (o:=RS) (1 / 2) = Ok (1 / 2, h, k) /\ ghk_locks_on 1 (1 / 2) h k.
Proof.
  split; [apply C69_gh_stability_region; lra|]. split; [rewrite C69_gh_stability_region; lra|].
  split; [rewrite C69_ghk_stability_region; lra|]. split; [reflexivity|].
  destruct (C69_optimal_noise_smoothing (1 / 2)) as (h & k & E & _ & _ & K); [lra|].
  exists h, k. split; [exact E|apply K; lra].
Qed.
