(** * C62: the Benedict-Bordner gains of a g-h filter. *)
From Coq Require Import List Reals Lra Lia Psatz Arith.
From Coquelicot Require Import Coquelicot.
From Verif Require Import Ops RealOps Model_GH Spec_GH.
Import ListNotations.
Open Scope R_scope.

(** A filter that follows a target: after k updates with the exact positions p + v dt, p + 2 v dt, ... *)
Fixpoint follow (p v : R) (k : nat) (s : gh RS) : gh RS :=
  match k with
  | O => s
  | S k => gh_update (o:=RS) (p + v * gh_dt s * INR (S k)) None None (follow p v k s)
  end.
(** The k-th residual, counted from 1. *)
Definition resid (p v : R) (s : gh RS) (k : nat) : R := gh_y (follow p v k s).
(** The sum of all squared residuals is T. *)
Definition transient (p v : R) (s : gh RS) (T : R) : Prop :=
  is_lim_seq (fun n => fold_right Rplus 0 (map (fun k => resid p v s k ^ 2) (seq 1 n))) T.
(** The stability region of the gains. *)
Definition stable (g h : R) : Prop := 0 < g /\ 0 < h /\ 2 * g + h < 4.
(** The filter had locked on a target at rest relative to its velocity estimate: its position is exact, and its
    velocity is that of the target before the manoeuvre. *)
Definition locked (p : R) (s : gh RS) : Prop := gh_x s = p.

(** ** The error recursion *)
Section Err.
Variables (s : gh RS) (p v : R).
Let dt := gh_dt s. Let g := gh_g s. Let h := gh_h s.
Hypothesis Hdt : dt <> 0.
Definition eb (k : nat) : R := dt * (v - gh_dx (follow p v k s)).
Definition ea (k : nat) : R := p + v * dt * INR k - gh_x (follow p v k s).
Lemma follow_cfg k : gh_dt (follow p v k s) = dt /\ gh_g (follow p v k s) = g /\ gh_h (follow p v k s) = h.
Proof. induction k as [|k IH]; [now repeat split|]. cbn [follow]. exact IH. Qed.
Lemma residE k : resid p v s (S k) = ea k + eb k.
Proof.
  unfold resid, ea, eb. cbn [follow]. destruct (follow_cfg k) as (c1 & c2 & c3).
  destruct (follow p v k s) as [x dx d gg hh xp dxp y z]. cbn in c1, c2, c3. subst d gg hh.
  unfold gh_update. cbn [gh_y gh_x gh_dx gh_dt gh_g gh_h opt_or]. rs. fold dt. rewrite S_INR. ring.
Qed.
Lemma eaS k : ea (S k) = (1 - g) * (ea k + eb k).
Proof.
  unfold ea, eb. cbn [follow]. destruct (follow_cfg k) as (c1 & c2 & c3).
  destruct (follow p v k s) as [x dx d gg hh xp dxp y z]. cbn in c1, c2, c3. subst d gg hh.
  unfold gh_update. cbn [gh_y gh_x gh_dx gh_dt gh_g gh_h opt_or]. rs. fold dt. rewrite S_INR. ring.
Qed.
Lemma ebS k : eb (S k) = eb k - h * (ea k + eb k).
Proof.
  unfold ea, eb. cbn [follow]. destruct (follow_cfg k) as (c1 & c2 & c3).
  destruct (follow p v k s) as [x dx d gg hh xp dxp y z]. cbn in c1, c2, c3. subst d gg hh.
  unfold gh_update. cbn [gh_y gh_x gh_dx gh_dt gh_g gh_h opt_or]. rs. fold dt. rewrite S_INR. field. exact Hdt.
Qed.
Lemma resid_rec k : resid p v s (S (S (S k))) = (2 - g - h) * resid p v s (S (S k)) - (1 - g) * resid p v s (S k).
Proof. rewrite !residE, !eaS, !ebS, !eaS. ring. Qed.

(** The quadratic form that each update lowers by the squared residual. *)
Let W (m b : R) : R := (2 * m ^ 2 - 2 * m * b + (2 - g) / h * b ^ 2) / (g * (4 - 2 * g - h)).
Hypothesis St : stable g h.
Lemma W_step k : W (ea k + eb k) (eb k) = (ea k + eb k) ^ 2 + W (ea (S k) + eb (S k)) (eb (S k)).
Proof. rewrite eaS, ebS. unfold W. destruct St as (G & Hh & Q). field. repeat split; lra. Qed.
Lemma W_pos m b : 0 <= W m b.
Proof.
  destruct St as (G & Hh & Q). unfold W.
  apply Rle_mult_inv_pos; [|apply Rmult_lt_0_compat; lra].
  replace (2 * m ^ 2 - 2 * m * b + (2 - g) / h * b ^ 2) with (2 * (m - b / 2) ^ 2 + (4 - 2 * g - h) / (2 * h) * b ^ 2) by (field; lra).
  assert (0 <= (4 - 2 * g - h) / (2 * h)) by (apply Rle_mult_inv_pos; lra).
  apply Rplus_le_le_0_compat; apply Rmult_le_pos; try apply pow2_ge_0; lra.
Qed.
Let P (n : nat) := fold_right Rplus 0 (map (fun k => resid p v s k ^ 2) (seq 1 n)).
Lemma P_S n : P (S n) = P n + (ea n + eb n) ^ 2.
Proof.
  unfold P. rewrite seq_S, map_app, fold_right_app. cbn [map fold_right Nat.add]. rewrite residE.
  assert (X : forall l a, fold_right Rplus a l = fold_right Rplus 0 l + a) by (induction l as [|b l IH]; intros; cbn; [ring|rewrite IH; ring]).
  rewrite X. ring.
Qed.
Lemma P_W n : P n = W (ea 0 + eb 0) (eb 0) - W (ea n + eb n) (eb n).
Proof. induction n as [|n IH]; [unfold P; cbn [seq map fold_right]; ring|]. rewrite P_S, IH, (W_step n). ring. Qed.
Lemma P_lim : is_lim_seq P (W (ea 0 + eb 0) (eb 0)).
Proof.
  assert (inc : forall n, P n <= P (S n)) by (intros n; rewrite P_S; pose proof (pow2_ge_0 (ea n + eb n)); lra).
  assert (bd : forall n, P n <= W (ea 0 + eb 0) (eb 0)) by (intros n; rewrite P_W; pose proof (W_pos (ea n + eb n) (eb n)); lra).
  destruct (ex_finite_lim_seq_incr P _ inc bd) as [L HL].
  assert (m2 : is_lim_seq (fun n => (ea n + eb n) ^ 2) 0).
  { apply (is_lim_seq_ext (fun n => P (S n) - P n)); [intros n; rewrite P_S; ring|].
    replace (Finite 0) with (Finite (L - L)) by (f_equal; ring).
    apply is_lim_seq_minus'; [apply (is_lim_seq_incr_1 P); exact HL|exact HL]. }
  assert (m1 : is_lim_seq (fun n => ea n + eb n) 0).
  { apply is_lim_seq_abs_0. apply (is_lim_seq_ext (fun n => sqrt ((ea n + eb n) ^ 2))).
    - intros n. rewrite <- sqrt_Rsqr_abs. f_equal. unfold Rsqr. ring.
    - pose proof (is_lim_seq_continuous sqrt _ 0 (continuity_pt_sqrt 0 (Rle_refl 0)) m2) as X. rewrite sqrt_0 in X. exact X. }
  assert (b1 : is_lim_seq eb 0).
  { apply (is_lim_seq_ext (fun n => (ea (S n) + eb (S n)) - (1 - g - h) * (ea n + eb n))).
    - intros n. rewrite eaS, ebS. ring.
    - replace (Finite 0) with (Finite (0 - (1 - g - h) * 0)) by (f_equal; ring).
      apply is_lim_seq_minus'; [apply (is_lim_seq_incr_1 (fun n => ea n + eb n)); exact m1|].
      apply (is_lim_seq_scal_l _ (1 - g - h) 0); exact m1. }
  assert (Wl : is_lim_seq (fun n => W (ea n + eb n) (eb n)) 0).
  { replace (Finite 0) with (Finite ((2 * (0 * 0) - 2 * (0 * 0) + (2 - g) / h * (0 * 0)) * / (g * (4 - 2 * g - h)))) by (f_equal; ring).
    apply (is_lim_seq_ext (fun n => (2 * ((ea n + eb n) * (ea n + eb n)) - 2 * ((ea n + eb n) * eb n) + (2 - g) / h * (eb n * eb n)) * / (g * (4 - 2 * g - h)))).
    - intros n. unfold W, Rdiv. f_equal. ring.
    - apply (is_lim_seq_scal_r _ (/ (g * (4 - 2 * g - h))) (Finite _)).
      apply is_lim_seq_plus'; [apply is_lim_seq_minus'|]; apply (is_lim_seq_scal_l _ _ (Finite _)); apply is_lim_seq_mult'; assumption. }
  apply (is_lim_seq_ext (fun n => W (ea 0 + eb 0) (eb 0) - W (ea n + eb n) (eb n))); [intros n; symmetry; apply P_W|].
  replace (Finite (W (ea 0 + eb 0) (eb 0))) with (Finite (W (ea 0 + eb 0) (eb 0) - 0)) by (f_equal; ring).
  apply is_lim_seq_minus'; [apply is_lim_seq_const|exact Wl].
Qed.
End Err.

(** The total squared residual after the target's velocity jumps by w is w^2 dt^2 (2-g) / (g h (4-2g-h)). *)
Theorem C62_transient : forall (s : gh RS) (p v : R), gh_dt s <> 0 -> stable (gh_g s) (gh_h s) -> locked p s ->
  transient p v s ((v - gh_dx s) ^ 2 * gh_dt s ^ 2 * ((2 - gh_g s) / (gh_g s * gh_h s * (4 - 2 * gh_g s - gh_h s)))).
Proof.
  intros s p v Hdt St L. pose proof (P_lim s p v Hdt St) as H. unfold transient.
  match goal with |- is_lim_seq _ (Finite ?T) => match type of H with is_lim_seq _ (Finite ?T') => replace T with T'; [exact H|] end end.
  destruct St as (G & Hh & Q). unfold ea, eb. cbn [follow INR]. rewrite L. field. repeat split; lra.
Qed.
Print Assumptions C62_transient.

(** The algebra: two points on a curve of constant prediction noise, the first on the Benedict-Bordner curve. *)
Lemma bb_curve g h a k : stable g h -> stable a k -> h = g ^ 2 / (2 - g) ->
  (2 * a ^ 2 + 2 * k + a * k) / (a * (4 - 2 * a - k)) = (2 * g ^ 2 + 2 * h + g * h) / (g * (4 - 2 * g - h)) ->
  let d := g ^ 2 - 8 * g + 8 in let c := (8 - 2 * g) / d in
  0 < d /\ 0 < c /\ k = 2 * a * (2 * c - 2 - c * a) / (2 + c * a) /\ 0 < 2 * c - 2 - c * a.
Proof.
  intros (G & Hh & Q) (A & Hk & Qa) E EK d c.
  assert (g2 : g < 2) by lra.
  assert (d0 : 0 < d).
  { assert (X : (4 - 2 * g - h) * (2 - g) = d) by (rewrite E; unfold d; field; lra).
    rewrite <- X. apply Rmult_lt_0_compat; lra. }
  assert (c0 : 0 < c) by (unfold c; apply Rdiv_lt_0_compat; lra).
  assert (K1 : (2 * g ^ 2 + 2 * h + g * h) / (g * (4 - 2 * g - h)) = c - 1).
  { rewrite E. unfold c, d in *. field. repeat split; try lra. }
  rewrite K1 in EK.
  assert (X : 2 * a ^ 2 + 2 * k + a * k = (c - 1) * (a * (4 - 2 * a - k))).
  { rewrite <- EK. field. split; lra. }
  assert (ca : 0 < c * a) by (apply Rmult_lt_0_compat; lra).
  assert (Y : k * (2 + c * a) = 2 * a * (2 * c - 2 - c * a)).
  { transitivity (2 * a ^ 2 + 2 * k + a * k - (c - 1) * (a * (4 - 2 * a - k)) + 2 * a * (2 * c - 2 - c * a)); [ring|rewrite X; ring]. }
  split; [exact d0|]. split; [exact c0|]. split.
  - rewrite <- Y. field. lra.
  - assert (0 < k * (2 + c * a)) by (apply Rmult_lt_0_compat; lra). rewrite Y in H.
    apply (Rmult_lt_reg_l (2 * a)); [lra|]. lra.
Qed.

Lemma bb_gap g h a k : stable g h -> stable a k -> h = g ^ 2 / (2 - g) ->
  (2 * a ^ 2 + 2 * k + a * k) / (a * (4 - 2 * a - k)) = (2 * g ^ 2 + 2 * h + g * h) / (g * (4 - 2 * g - h)) ->
  exists r, 0 < r /\ (2 - a) / (a * k * (4 - 2 * a - k)) = (2 - g) / (g * h * (4 - 2 * g - h)) + r * (a - g) ^ 2.
Proof.
  intros St St' E EK. destruct (bb_curve g h a k St St' E EK) as (d0 & c0 & Ek & q').
  destruct St as (G & Hh & Q). destruct St' as (A & Hk & Qa).
  set (d := g ^ 2 - 8 * g + 8) in *. set (c := (8 - 2 * g) / d) in *.
  assert (a2 : a < 2) by lra. assert (g2 : g < 2) by lra.
  assert (ca : 0 < c * a) by (apply Rmult_lt_0_compat; lra).
  exists ((4 * (4 * g / d) * (2 - a) + 4 * a * (8 * (2 - g) / d) ^ 2 / (2 - g)) / (16 * a ^ 2 * g ^ 2 * (4 * g / d) * (2 * c - 2 - c * a))).
  assert (gd : 0 < 4 * g / d) by (apply Rdiv_lt_0_compat; lra).
  assert (gd2 : 0 < 8 * (2 - g) / d) by (apply Rdiv_lt_0_compat; lra).
  split.
  - apply Rdiv_lt_0_compat.
    + apply Rplus_lt_0_compat; [repeat apply Rmult_lt_0_compat; lra|].
      apply Rdiv_lt_0_compat; [|lra]. apply Rmult_lt_0_compat; [lra|]. apply pow_lt; exact gd2.
    + repeat apply Rmult_lt_0_compat; try lra; apply pow_lt; lra.
  - assert (U : 4 - 2 * a - k = 8 / (2 + c * a)) by (rewrite Ek; field; lra).
    rewrite U, E. clear U. subst k. unfold c in *. clear c. unfold d in *.
    field. repeat split; try lra.
    + assert (X : 0 < (g ^ 2 - 8 * g + 8) * (2 * ((8 - 2 * g) / (g ^ 2 - 8 * g + 8)) - 2 - (8 - 2 * g) / (g ^ 2 - 8 * g + 8) * a))
        by (apply Rmult_lt_0_compat; assumption).
      match goal with |- ?t <> 0 => replace t with ((g ^ 2 - 8 * g + 8) * (2 * ((8 - 2 * g) / (g ^ 2 - 8 * g + 8)) - 2 - (8 - 2 * g) / (g ^ 2 - 8 * g + 8) * a)) by (field; lra) end. lra.
    + assert (0 < (8 - 2 * g) * a) by (apply Rmult_lt_0_compat; lra). lra.
Qed.

(** Among all stable filters with the same prediction noise (C53: VRF_prediction is the variance of the predicted
    position per unit measurement noise) the Benedict-Bordner gains give the least total squared residual, strictly. *)
Theorem C62_optimal : forall (p v T T' : R) (s s' : gh RS),
  let c := benedict_bornder_constants (o:=RS) (gh_g s) false in
  gh_dt s <> 0 -> gh_dt s' = gh_dt s -> gh_dx s' = gh_dx s -> locked p s -> locked p s' ->
  gh_g s = fst c -> gh_h s = snd c -> stable (gh_g s) (gh_h s) -> stable (gh_g s') (gh_h s') ->
  gh_VRF_prediction s' = gh_VRF_prediction s ->
  transient p v s T -> transient p v s' T' ->
  T <= T' /\ (v <> gh_dx s -> T = T' -> gh_g s' = gh_g s /\ gh_h s' = gh_h s).
Proof.
  intros p v T T' s s' c Hdt Edt Edx L L' _ Eh St St' EK H H'.
  assert (ET : T = (v - gh_dx s) ^ 2 * gh_dt s ^ 2 * ((2 - gh_g s) / (gh_g s * gh_h s * (4 - 2 * gh_g s - gh_h s)))).
  { pose proof (is_lim_seq_unique _ _ H) as u. rewrite (is_lim_seq_unique _ _ (C62_transient s p v Hdt St L)) in u. congruence. }
  assert (Hdt' : gh_dt s' <> 0) by (rewrite Edt; exact Hdt).
  assert (ET' : T' = (v - gh_dx s) ^ 2 * gh_dt s ^ 2 * ((2 - gh_g s') / (gh_g s' * gh_h s' * (4 - 2 * gh_g s' - gh_h s')))).
  { pose proof (is_lim_seq_unique _ _ H') as u. rewrite (is_lim_seq_unique _ _ (C62_transient s' p v Hdt' St' L')) in u.
    rewrite Edt, Edx in u. congruence. }
  clear H H'. unfold c, benedict_bornder_constants in Eh. cbn [snd] in Eh. revert Eh EK. unfold gh_VRF_prediction. rs.
  set (w := (v - gh_dx s) ^ 2 * gh_dt s ^ 2) in *.
  assert (w0 : 0 <= w) by (unfold w; apply Rmult_le_pos; apply pow2_ge_0).
  assert (w1 : v <> gh_dx s -> 0 < w).
  { intros N. unfold w. apply Rmult_lt_0_compat; apply pow2_gt_0; [lra|exact Hdt]. }
  clearbody w. intros Eh EK.
  assert (Eh' : gh_h s = gh_g s ^ 2 / (2 - gh_g s)) by (rewrite Eh; f_equal; ring).
  assert (EK' : (2 * gh_g s' ^ 2 + 2 * gh_h s' + gh_g s' * gh_h s') / (gh_g s' * (4 - 2 * gh_g s' - gh_h s'))
             = (2 * gh_g s ^ 2 + 2 * gh_h s + gh_g s * gh_h s) / (gh_g s * (4 - 2 * gh_g s - gh_h s))).
  { replace (2 * gh_g s' ^ 2) with (2 * (gh_g s' * gh_g s')) by ring. replace (2 * gh_g s ^ 2) with (2 * (gh_g s * gh_g s)) by ring. exact EK. }
  clear Eh EK. rename Eh' into Eh, EK' into EK.
  destruct (bb_gap _ _ _ _ St St' Eh EK) as (r & r0 & D). rewrite ET, ET', D. split.
  - apply Rmult_le_compat_l; [exact w0|]. assert (0 <= r * (gh_g s' - gh_g s) ^ 2) by (apply Rmult_le_pos; [lra|apply pow2_ge_0]). lra.
  - intros N EQ. specialize (w1 N).
    assert (Z : r * (gh_g s' - gh_g s) ^ 2 = 0) by (apply (Rmult_eq_reg_l w); lra).
    assert (G : gh_g s' = gh_g s).
    { destruct (Rmult_integral _ _ Z) as [Z1|Z1]; [lra|]. destruct (Req_dec (gh_g s') (gh_g s)) as [e|e]; [exact e|].
      assert (0 < (gh_g s' - gh_g s) ^ 2) by (apply pow2_gt_0; lra). lra. }
    split; [exact G|]. destruct (bb_curve _ _ _ _ St St' Eh EK) as (d0 & c0 & Ek & q').
    destruct (bb_curve _ _ _ _ St St Eh eq_refl) as (_ & _ & Ek2 & _). rewrite Ek, Ek2, G. reflexivity.
Qed.
Print Assumptions C62_optimal.

(** A concrete pair with the same prediction noise: g = 4/5 gives h = 8/15; the other filter has gains 1/2 and 2/3. *)
Example C62_optimal_example :
  let s := gh_init (o:=RS) 0 0 1 (4/5) (8/15) in
  let s' := gh_init (o:=RS) 0 0 1 (1/2) (2/3) in
  benedict_bornder_constants (o:=RS) (4/5) false = (4/5, 8/15) /\ stable (4/5) (8/15) /\ stable (1/2) (2/3) /\
  gh_VRF_prediction s = 13/7 /\ gh_VRF_prediction s' = 13/7 /\ transient 0 1 s (675/448) /\ transient 0 1 s' (27/14).
Proof.
  assert (S1 : stable (4/5) (8/15)) by (unfold stable; lra). assert (S2 : stable (1/2) (2/3)) by (unfold stable; lra).
  split; [unfold benedict_bornder_constants; rs; f_equal; field|]. split; [exact S1|]. split; [exact S2|].
  split; [unfold gh_VRF_prediction, gh_init; rs; cbn; field|]. split; [unfold gh_VRF_prediction, gh_init; rs; cbn; field|].
  split.
  - pose proof (C62_transient (gh_init (o:=RS) 0 0 1 (4/5) (8/15)) 0 1 R1_neq_R0 S1 eq_refl) as H. cbn in H.
    match type of H with transient _ _ _ ?T => replace T with (675/448) in H by field end. exact H.
  - pose proof (C62_transient (gh_init (o:=RS) 0 0 1 (1/2) (2/3)) 0 1 R1_neq_R0 S2 eq_refl) as H. cbn in H.
    match type of H with transient _ _ _ ?T => replace T with (27/14) in H by field end. exact H.
Qed.

(** ** Ringing *)
(** A residual of the sign opposite to the first one. *)
Definition rings (p v : R) (s : gh RS) : Prop := exists k, resid p v s 1 * resid p v s (S k) < 0.

Section Ring.
Variables (s : gh RS) (p v : R).
Hypothesis (Hdt : gh_dt s <> 0) (L : locked p s) (N : v <> gh_dx s).
Let g := gh_g s. Let h := gh_h s.
Let u k := resid p v s 1 * resid p v s (S k).
Lemma u0 : 0 < u 0.
Proof.
  unfold u. rewrite residE. unfold ea, eb. cbn [follow INR]. rewrite L.
  replace ((p + v * gh_dt s * 0 - p + gh_dt s * (v - gh_dx s)) * (p + v * gh_dt s * 0 - p + gh_dt s * (v - gh_dx s)))
    with ((gh_dt s * (v - gh_dx s)) ^ 2) by ring.
  apply pow2_gt_0. apply Rmult_integral_contrapositive_currified; [exact Hdt|lra].
Qed.
Lemma u1 : u 1 = (2 - g - h) * u 0.
Proof.
  unfold u. rewrite !residE, (eaS s p v), (ebS s p v Hdt). assert (E : ea s p v 0 = 0) by (unfold ea; cbn [follow INR]; rewrite L; ring).
  rewrite E. fold g h. ring.
Qed.
Lemma uSS k : u (S (S k)) = (2 - g - h) * u (S k) - (1 - g) * u k.
Proof. unfold u. rewrite (resid_rec s p v Hdt k). fold g h. ring. Qed.

Lemma ring_no : 0 < 2 - g - h -> 4 * (1 - g) <= (2 - g - h) ^ 2 -> forall k, 0 < u k.
Proof.
  intros S0 D. assert (X : forall k, 0 < u k /\ (2 - g - h) / 2 * u k <= u (S k)).
  { induction k as [|k [I1 I2]].
    - pose proof u0 as U0. split; [exact U0|]. rewrite u1. assert (0 < (2 - g - h) * u 0) by (apply Rmult_lt_0_compat; assumption). lra.
    - assert (P1 : 0 < u (S k)) by (apply Rlt_le_trans with (2 := I2); apply Rmult_lt_0_compat; lra).
      split; [exact P1|]. rewrite uSS.
      assert ((1 - g) * u k <= (2 - g - h) ^ 2 / 4 * u k) by (apply Rmult_le_compat_r; lra).
      assert ((2 - g - h) / 2 * ((2 - g - h) / 2 * u k) <= (2 - g - h) / 2 * u (S k)) by (apply Rmult_le_compat_l; lra).
      replace ((2 - g - h) ^ 2 / 4 * u k) with ((2 - g - h) / 2 * ((2 - g - h) / 2 * u k)) in H by field. lra. }
  intros k. apply X.
Qed.

Lemma ring_yes : g < 1 -> (2 - g - h) ^ 2 < 4 * (1 - g) -> exists k, u k < 0.
Proof.
  intros G D. destruct (Classical_Prop.classic (exists k, u k < 0)) as [E|E]; [exact E|exfalso].
  assert (P : forall k, 0 <= u k) by (intros k; apply Rnot_lt_le; intros X; apply E; exists k; exact X).
  assert (Q : forall k, 0 < u k).
  { induction k as [|k IH]; [exact u0|]. destruct (Rle_lt_or_eq_dec _ _ (P (S k))) as [X|X]; [exact X|].
    pose proof (P (S (S k))) as Y. rewrite uSS, <- X in Y. assert (0 < (1 - g) * u k) by (apply Rmult_lt_0_compat; lra). lra. }
  set (q := sqrt (1 - g)). assert (q0 : 0 < q) by (apply sqrt_lt_R0; lra).
  assert (qq : q * q = 1 - g) by (apply sqrt_sqrt; lra).
  set (del := 2 * q - (2 - g - h)).
  assert (del0 : 0 < del).
  { unfold del. destruct (Rle_lt_dec (2 * q) (2 - g - h)) as [X|X]; [|lra].
    assert ((2 * q) ^ 2 <= (2 - g - h) ^ 2) by (apply pow_incr; lra). replace ((2 * q) ^ 2) with (4 * (q * q)) in H by ring. rewrite qq in H. lra. }
  set (t k := u (S k) / u k).
  assert (T : forall k, t k <= (2 - g - h) - INR k * del).
  { induction k as [|k IH].
    - unfold t. rewrite u1. cbn [INR]. pose proof u0. right. field. lra.
    - assert (tS : t (S k) = (2 - g - h) - (1 - g) / t k).
      { unfold t. rewrite uSS. pose proof (Q k). pose proof (Q (S k)). field. split; lra. }
      assert (t0 : 0 < t k) by (unfold t; apply Rdiv_lt_0_compat; apply Q).
      assert (del <= t k - t (S k)).
      { rewrite tS. unfold del. rewrite <- qq.
        assert (0 <= (t k - q) ^ 2 / t k) by (apply Rle_mult_inv_pos; [apply pow2_ge_0|exact t0]).
        replace ((t k - q) ^ 2 / t k) with (t k - 2 * q + q * q / t k) in H by (field; lra). lra. }
      rewrite S_INR. lra. }
  destruct (nfloor_ex (Rmax 0 ((2 - g - h) / del)) (Rmax_l _ _)) as [n0 [_ Hn0]]. set (n := S n0).
  assert (Hn : (2 - g - h) / del < INR n) by (unfold n; rewrite S_INR; pose proof (Rmax_r 0 ((2 - g - h) / del)); lra).
  assert (Hn' : 2 - g - h < INR n * del).
  { replace (2 - g - h) with ((2 - g - h) / del * del) by (field; lra). apply Rmult_lt_compat_r; lra. }
  pose proof (T n). assert (0 < t n) by (unfold t; apply Rdiv_lt_0_compat; apply Q). lra.
Qed.
End Ring.

(** The default gains ring: some residual after a velocity jump has the opposite sign. *)
Theorem C62_default_rings : forall (s : gh RS) (p v : R),
  let c := benedict_bornder_constants (o:=RS) (gh_g s) false in
  gh_dt s <> 0 -> locked p s -> v <> gh_dx s -> 0 < gh_g s < 1 -> gh_g s = fst c -> gh_h s = snd c -> rings p v s.
Proof.
  intros s p v c Hdt L N G _ Eh. apply (ring_yes s p v Hdt L N); [lra|].
  unfold c, benedict_bornder_constants in Eh. cbn [snd] in Eh. revert Eh. rs. intros Eh. rewrite Eh.
  set (g := gh_g s) in *. clearbody g. clear - G.
  replace (2 - g - g * g / (2 - g)) with (4 * (1 - g) / (2 - g)) by (field; lra).
  assert (X : 4 * (1 - g) - (4 * (1 - g) / (2 - g)) ^ 2 = 4 * (1 - g) * g ^ 2 / (2 - g) ^ 2) by (field; lra).
  assert (0 < 4 * (1 - g) * g ^ 2 / (2 - g) ^ 2).
  { apply Rdiv_lt_0_compat; [apply Rmult_lt_0_compat; [lra|apply pow_lt; lra]|apply pow_lt; lra]. }
  lra.
Qed.
Print Assumptions C62_default_rings.

(** With critical=True the residuals never change sign, so the ringing is eliminated entirely (the docstring says it is
    only reduced), and the filter is stable. *)
Theorem C62_critical_does_not_ring : forall (s : gh RS) (p v : R),
  let c := benedict_bornder_constants (o:=RS) (gh_g s) true in
  gh_dt s <> 0 -> locked p s -> v <> gh_dx s -> 0 < gh_g s < 1 -> gh_g s = fst c -> gh_h s = snd c ->
  stable (gh_g s) (gh_h s) /\ forall k, 0 < resid p v s 1 * resid p v s (S k).
Proof.
  intros s p v c Hdt L N G _ Eh.
  unfold c, benedict_bornder_constants in Eh. cbn [snd] in Eh. revert Eh. rs. intros Eh.
  assert (X : 0 < gh_h s <= (1 - sqrt (1 - gh_g s)) ^ 2).
  { rewrite Eh. set (g := gh_g s : R) in *. change (sc RS) with R in g. clearbody g. clear - G.
    assert (gg : 0 < 1 - g * g) by (assert (g * g < 1 * 1) by (apply Rmult_le_0_lt_compat; lra); lra).
    set (r := sqrt (1 - g * g)). set (t := sqrt (1 - g)).
    assert (r0 : 0 < r) by (apply sqrt_lt_R0; exact gg). assert (t0 : 0 < t) by (apply sqrt_lt_R0; lra).
    assert (rr : r * r = 1 - g * g) by (apply sqrt_sqrt; lra). assert (tt : t * t = 1 - g) by (apply sqrt_sqrt; lra).
    assert (tr : t <= r) by (apply sqrt_le_1_alt; assert (g * g <= g * 1) by (apply Rmult_le_compat_l; lra); lra).
    assert (r1 : r < 1) by (unfold r; rewrite <- sqrt_1 at 2; apply sqrt_lt_1_alt; assert (0 < g * g) by (apply Rmult_lt_0_compat; lra); lra).
    assert (t1 : t < 1) by (unfold t; rewrite <- sqrt_1 at 2; apply sqrt_lt_1_alt; lra).
    assert (E1 : 2 - g * g - 2 * r = (1 - r) ^ 2) by (replace (g * g) with (1 - r * r) by lra; ring).
    assert (E2 : g * g = (1 - r) * (1 + r)) by (rewrite Rmult_plus_distr_l, Rmult_1_r, Rmult_minus_distr_r, rr; ring).
    assert (E3 : g = (1 - t) * (1 + t)) by (transitivity (1 - t * t); [lra|ring]).
    assert (E4 : 4 / 5 * (1 - r) ^ 2 / (g * g) = 4 / 5 * ((1 - r) / (1 + r))) by (rewrite E2; field; split; lra).
    rewrite E1, E4.
    split; [apply Rmult_lt_0_compat; [lra|apply Rdiv_lt_0_compat; lra]|].
    (* (1-r)/(1+r) = g^2/(1+r)^2 and (1-t)^2 = g^2/(1+t)^2 *)
    assert (E5 : (1 - r) / (1 + r) = g * g / (1 + r) ^ 2) by (rewrite E2; field; lra).
    assert (E6 : (1 - t) ^ 2 = g * g / (1 + t) ^ 2) by (rewrite E3; field; lra).
    rewrite E5, E6. assert (gp : 0 < g * g) by (apply Rmult_lt_0_compat; lra).
    assert (S : (1 + t) ^ 2 <= (1 + r) ^ 2) by (apply pow_incr; lra).
    assert (S1 : 0 < (1 + t) ^ 2) by (apply pow_lt; lra).
    assert (I : g * g / (1 + r) ^ 2 <= g * g / (1 + t) ^ 2).
    { unfold Rdiv. apply Rmult_le_compat_l; [lra|]. apply Rinv_le_contravar; assumption. }
    assert (0 < g * g / (1 + r) ^ 2) by (apply Rdiv_lt_0_compat; lra). lra. }
  destruct X as [X1 X2]. set (t := sqrt (1 - gh_g s)) in *.
  assert (t0 : 0 < t) by (apply sqrt_lt_R0; lra). assert (tt : t * t = 1 - gh_g s) by (apply sqrt_sqrt; lra).
  assert (t1 : t < 1) by (unfold t; rewrite <- sqrt_1 at 2; apply sqrt_lt_1_alt; lra).
  assert (X3 : 2 * t <= 2 - gh_g s - gh_h s).
  { replace ((1 - t) ^ 2) with (1 - 2 * t + t * t) in X2 by ring. rewrite tt in X2. lra. }
  split.
  - repeat split; try lra.
  - apply (ring_no s p v Hdt L N); [lra|]. assert ((2 * t) ^ 2 <= (2 - gh_g s - gh_h s) ^ 2) by (apply pow_incr; lra).
    replace ((2 * t) ^ 2) with (4 * (t * t)) in H by ring. rewrite tt in H. exact H.
Qed.
Print Assumptions C62_critical_does_not_ring.

Example C62_ringing_example :
  rings 0 1 (gh_init (o:=RS) 0 0 1 (1/2) (1/6)) /\
  ~ rings 0 1 (gh_init (o:=RS) 0 0 1 (1/2) (snd (benedict_bornder_constants (o:=RS) (1/2) true))).
Proof.
  split.
  - apply C62_default_rings; cbn [gh_init gh_dt gh_g gh_h gh_dx]; try lra; try reflexivity.
    unfold benedict_bornder_constants. rs. field.
  - intros [k Hk]. pose proof (proj2 (C62_critical_does_not_ring (gh_init (o:=RS) 0 0 1 (1/2) (snd (benedict_bornder_constants (o:=RS) (1/2) true)))
      0 1 R1_neq_R0 eq_refl R1_neq_R0 ltac:(cbn; lra) eq_refl eq_refl) k) as H. lra.
Qed.
