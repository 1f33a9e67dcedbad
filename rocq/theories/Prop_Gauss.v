(** * Gaussian algebra over the reals: C39 (scalar part). *)
From Coq Require Import Reals Lra List.
From Verif Require Import Ops RealOps Model_Stats.
Import ListNotations.
Local Open Scope R_scope.

Notation mulR := (@mul RS).
Notation gauss := (@gaussian RS PI).

(** Precisions and precision-weighted means add. *)
Theorem C39_mul_adds_precisions : forall m1 v1 m2 v2 : R, 0 < v1 -> 0 < v2 ->
  let m := fst (mulR m1 v1 m2 v2) in let v := snd (mulR m1 v1 m2 v2) in
  0 < v /\ v < v1 /\ v < v2 /\ / v = / v1 + / v2 /\ m / v = m1 / v1 + m2 / v2.
Proof.
  intros m1 v1 m2 v2 h1 h2 m v. unfold m, v, mul. rs.
  assert (e : 1 / (1 / v1 + 1 / v2) = v1 * v2 / (v1 + v2)) by (field; repeat split; lra).
  rewrite e. assert (0 < v1 * v2) by nra.
  assert (p : 0 < / (v1 + v2)) by (apply Rinv_0_lt_compat; lra).
  assert (q : (v1 + v2) * / (v1 + v2) = 1) by (field; lra).
  unfold Rdiv. repeat split.
  - nra.
  - apply Rmult_lt_reg_r with (v1 + v2); [lra|]. rewrite Rmult_assoc, (Rmult_comm _ (v1+v2)), q. nra.
  - apply Rmult_lt_reg_r with (v1 + v2); [lra|]. rewrite Rmult_assoc, (Rmult_comm _ (v1+v2)), q. nra.
  - field. repeat split; lra.
  - field. repeat split; lra.
Qed.
Print Assumptions C39_mul_adds_precisions.

(** A Gaussian is determined by its precision and precision-weighted mean: mul is
    commutative and associative, so any order of combining gives one result. *)
Theorem C39_mul_commutative : forall m1 v1 m2 v2 : R, mulR m1 v1 m2 v2 = mulR m2 v2 m1 v1.
Proof.
  intros. unfold mul. rs. rewrite (Rplus_comm (v2 * m1)), (Rplus_comm v2), (Rplus_comm (1 / v2)). reflexivity.
Qed.
Print Assumptions C39_mul_commutative.

Theorem C39_mul_associative : forall m1 v1 m2 v2 m3 v3 : R, 0 < v1 -> 0 < v2 -> 0 < v3 ->
  let a := mulR m1 v1 m2 v2 in let b := mulR m2 v2 m3 v3 in
  mulR (fst a) (snd a) m3 v3 = mulR m1 v1 (fst b) (snd b).
Proof.
  intros m1 v1 m2 v2 m3 v3 h1 h2 h3 a b. unfold a, b, mul. rs.
  assert (0 < v1 * v2) by nra. assert (0 < v2 * v3) by nra. assert (0 < v1 * v3) by nra.
  f_equal; field; repeat split; nra.
Qed.
Print Assumptions C39_mul_associative.

(** mul is the scalar Kalman update of (m1, v1) with measurement m2 of variance v2. *)
Theorem C39_mul_is_kalman_update : forall m1 v1 m2 v2 : R, 0 < v1 -> 0 < v2 ->
  let K := v1 / (v1 + v2) in
  mulR m1 v1 m2 v2 = (m1 + K * (m2 - m1), (1 - K) * v1).
Proof. intros m1 v1 m2 v2 h1 h2 K. unfold K, mul. rs. f_equal; field; repeat split; lra. Qed.
Print Assumptions C39_mul_is_kalman_update.

(** The density of the product is the product of the densities, up to the constant mul_pdf
    returns; mul_pdf's mean and variance are mul's; the constant is the density of m1 under
    the sum of the two Gaussians as [add] combines variances. *)
Theorem C39_product_density : forall m1 v1 m2 v2 x : R, 0 < v1 -> 0 < v2 ->
  let '(m, v, c) := @mul_pdf RS PI m1 v1 m2 v2 in
  (m, v) = mulR m1 v1 m2 v2 /\ 0 < c /\
  gauss x m1 v1 * gauss x m2 v2 = c * gauss x m v /\
  c = gauss m1 m2 (snd (@add RS m1 v1 m2 v2)).
Proof.
  intros m1 v1 m2 v2 x h1 h2. unfold mul_pdf, gaussian, mul, add. rs.
  assert (PIp := PI_RGT_0).
  assert (s1 : 0 < 2 * PI * v1) by nra. assert (s2 : 0 < 2 * PI * v2) by nra.
  assert (s12 : 0 < 2 * PI * (v1 + v2)) by nra.
  assert (e : 1 / (1 / v1 + 1 / v2) = v1 * v2 / (v1 + v2)) by (field; repeat split; lra).
  rewrite e.
  assert (pv : 0 < v1 * v2 / (v1 + v2)) by (apply Rdiv_lt_0_compat; nra).
  assert (s3 : 0 < 2 * PI * (v1 * v2 / (v1 + v2))) by nra.
  split; [reflexivity|]. split; [|split].
  - apply Rdiv_lt_0_compat; [apply exp_pos|apply sqrt_lt_R0; lra].
  - assert (q : sqrt (2 * PI * v1) * sqrt (2 * PI * v2) = sqrt (2 * PI * (v1 + v2)) * sqrt (2 * PI * (v1 * v2 / (v1 + v2)))).
    { rewrite <- !sqrt_mult by lra. f_equal. field. lra. }
    assert (n1 := sqrt_lt_R0 _ s1). assert (n2 := sqrt_lt_R0 _ s2). assert (n3 := sqrt_lt_R0 _ s3). assert (n12 := sqrt_lt_R0 _ s12).
    set (A := sqrt (2 * PI * v1)) in *. set (B := sqrt (2 * PI * v2)) in *. set (C := sqrt (2 * PI * (v1 + v2))) in *.
    set (D := sqrt (2 * PI * (v1 * v2 / (v1 + v2)))) in *.
    assert (E : forall a b c d, a + b = c + d -> 1 / A * exp a * (1 / B * exp b) = exp c / C * (1 / D * exp d)).
    { intros a b c d h. replace (1 / A * exp a * (1 / B * exp b)) with (exp (a + b) / (A * B)) by (rewrite exp_plus; field; lra).
      replace (exp c / C * (1 / D * exp d)) with (exp (c + d) / (C * D)) by (rewrite exp_plus; field; lra).
      rewrite h, q. reflexivity. }
    apply E. field. repeat split; try lra.
  - replace (- ((m1 - m2) * (m1 - m2)) / (2 * (v1 + v2))) with (- (1 / 2) * ((m1 - m2) * (m1 - m2)) / (v1 + v2)) by (field; lra).
    unfold Rdiv. ring.
Qed.
Print Assumptions C39_product_density.

(** add: commutative, associative; variances never shrink. *)
Theorem C39_add : forall m1 v1 m2 v2 m3 v3 : R,
  @add RS m1 v1 m2 v2 = @add RS m2 v2 m1 v1 /\
  (let a := @add RS m1 v1 m2 v2 in let b := @add RS m2 v2 m3 v3 in
   @add RS (fst a) (snd a) m3 v3 = @add RS m1 v1 (fst b) (snd b)) /\
  (0 <= v1 -> 0 <= v2 -> v1 <= snd (@add RS m1 v1 m2 v2) /\ v2 <= snd (@add RS m1 v1 m2 v2)).
Proof. intros. unfold add. rs. repeat split; try lra; f_equal; ring. Qed.
Print Assumptions C39_add.

(** gaussian of an array, normalised: nonnegative entries, one per input, summing to 1. *)
Lemma fold_sum l a : fold_left Rplus l a = a + fold_left Rplus l 0.
Proof.
  revert a; induction l as [|x l IH]; intros a; simpl; [lra|]. rewrite (IH (a + x)), (IH (0 + x)). lra.
Qed.
Lemma fold_sum_pos l : l <> [] -> Forall (fun x => 0 < x) l -> 0 < fold_left Rplus l 0.
Proof.
  intros ne p. destruct p as [|x l px p]; [congruence|]. simpl. rewrite fold_sum.
  assert (0 <= fold_left Rplus l 0). { clear ne px x. induction p; simpl; [lra|]. rewrite fold_sum. lra. }
  lra.
Qed.
Lemma fold_sum_div l s : fold_left Rplus (map (fun p => p / s) l) 0 = fold_left Rplus l 0 / s.
Proof.
  induction l as [|x l IH]; simpl; [unfold Rdiv; ring|]. rewrite fold_sum, (fold_sum l), IH. unfold Rdiv; ring.
Qed.
Theorem C39_normalised_array : forall (xs : list R) (mean var : R), xs <> [] -> 0 < var ->
  let p := @gaussian_array RS PI xs mean var true in
  length p = length xs /\ Forall (fun a => 0 < a) p /\ fold_left Rplus p 0 = 1.
Proof.
  intros xs mean var ne hv p. unfold p, gaussian_array. cbn [sc s0 sadd sdiv RS].
  set (d := map _ xs).
  assert (pd : Forall (fun a : R => 0 < a) d).
  { apply Forall_forall. intros a ia. apply in_map_iff in ia as [x [e _]]. subst a. unfold gaussian. rs.
    assert (PIp := PI_RGT_0). apply Rmult_lt_0_compat; [|apply exp_pos].
    apply Rdiv_lt_0_compat; [lra|]. apply sqrt_lt_R0. nra. }
  assert (nd : d <> []) by (destruct xs; [congruence|discriminate]).
  assert (sp := fold_sum_pos d nd pd).
  split; [rewrite map_length; apply map_length|]. split.
  - apply Forall_forall. intros a ia. apply in_map_iff in ia as [x [e ix]]. subst a.
    apply Rdiv_lt_0_compat; [|exact sp]. exact (proj1 (Forall_forall _ _) pd x ix).
  - rewrite fold_sum_div. apply Rinv_r. lra.
Qed.
Print Assumptions C39_normalised_array.

(** norm_cdf does not depend on the order of the range's ends and lies in [0,1] for any
    distribution function. *)
Lemma absdiff (p q : R) : 0 <= p <= 1 -> 0 <= q <= 1 ->
  (if Rltb (p - q) 0 then - (p - q) else p - q) = (if Rltb (q - p) 0 then - (q - p) else q - p) /\
  0 <= (if Rltb (p - q) 0 then - (p - q) else p - q) <= 1.
Proof.
  intros ha hb.
  destruct (Rltb (p - q) 0) eqn:e1; destruct (Rltb (q - p) 0) eqn:e2;
    [apply Rltb_true in e1; apply Rltb_true in e2|apply Rltb_true in e1; apply Rltb_false in e2|
     apply Rltb_false in e1; apply Rltb_true in e2|apply Rltb_false in e1; apply Rltb_false in e2]; lra.
Qed.
Theorem C39_norm_cdf : forall (cdf : R -> R -> R -> R) (a b mu var : R) std,
  (forall x m s, 0 <= cdf x m s <= 1) ->
  @norm_cdf RS cdf a b mu var std = @norm_cdf RS cdf b a mu var std /\
  0 <= @norm_cdf RS cdf a b mu var std <= 1.
Proof. intros cdf a b mu var std h. destruct std; exact (absdiff _ _ (h _ _ _) (h _ _ _)). Qed.
Print Assumptions C39_norm_cdf.

(** Worked number from the docstring: mul(1, 2, 3, 4) = (5/3, 4/3). *)
Example C39_example : mulR 1 2 3 4 = (5/3, 4/3).
Proof. unfold mul. rs. f_equal; field. Qed.
