(** * C67: covariance_ellipse describes the set of points at the given Mahalanobis distance. *)
From Coq Require Import Reals Lra Lia List.
From Verif Require Import Ops RealOps ListOps Model_Ellipse.
Import ListNotations.
Local Open Scope R_scope.
Notation RO := (listO RS).

Definition m22 (a b c d : R) : M RO 2 2 := [[a; b]; [c; d]].

(** What numpy.linalg.svd promises on the array ((a, b), (c, d)): P = U diag(s) V^T with U and V orthogonal and s0 >= s1 >= 0. *)
Definition svd_ok (svd : M RO 2 2 -> res (M RO 2 2 * (R * R))) (a b c d : R) : Prop :=
  exists u v w z s t v0 v1 v2 v3,
    svd (m22 a b c d) = Ok (m22 u v w z, (s, t)) /\ 0 <= t <= s /\
    (* U^T U = 1 *) u * u + w * w = 1 /\ v * v + z * z = 1 /\ u * v + w * z = 0 /\
    (* V^T V = 1 *) v0 * v0 + v2 * v2 = 1 /\ v1 * v1 + v3 * v3 = 1 /\ v0 * v1 + v2 * v3 = 0 /\
    (* P = U diag(s, t) V^T *)
    a = u * s * v0 + v * t * v1 /\ b = u * s * v2 + v * t * v3 /\ c = w * s * v0 + z * t * v1 /\ d = w * s * v2 + z * t * v3.
(** What math.atan2 promises: the angle of the point. *)
Definition atan2_ok (atan2 : R -> R -> R) : Prop :=
  forall x y, x * x + y * y = 1 -> cos (atan2 y x) = x /\ sin (atan2 y x) = y.

(** The singular vectors of a positive semidefinite matrix are eigenvectors. *)
Lemma svd_eig a b d u v w z s t v0 v1 v2 v3 :
  (forall x y, 0 <= a * x * x + 2 * b * x * y + d * y * y) -> 0 <= t <= s ->
  u * u + w * w = 1 -> v * v + z * z = 1 -> u * v + w * z = 0 ->
  v0 * v0 + v2 * v2 = 1 -> v1 * v1 + v3 * v3 = 1 -> v0 * v1 + v2 * v3 = 0 ->
  a = u * s * v0 + v * t * v1 -> b = u * s * v2 + v * t * v3 -> b = w * s * v0 + z * t * v1 -> d = w * s * v2 + z * t * v3 ->
  (a * u + b * w = s * u /\ b * u + d * w = s * w) /\ (a * v + b * z = t * v /\ b * v + d * z = t * z).
Proof.
  intros psd st U0 U1 U2 V0 V1 V2 ea eb ec ed.
  assert (K : forall p q r m s : R, 0 <= s -> a * p + b * q = s * r -> b * p + d * q = s * m ->
             a * r + b * m = s * p -> b * r + d * m = s * q -> a * p + b * q = s * p /\ b * p + d * q = s * q).
  { intros p q r m s' hs e1 e2 e3 e4. specialize (psd (p - r) (q - m)).
    assert (E : a * (p - r) * (p - r) + 2 * b * (p - r) * (q - m) + d * (q - m) * (q - m) = - s' * ((p - r)² + (q - m)²)).
    { unfold Rsqr. transitivity ((p - r) * ((a * p + b * q) - (a * r + b * m)) + (q - m) * ((b * p + d * q) - (b * r + d * m))); [ring|].
      rewrite e1, e2, e3, e4. ring. }
    rewrite E in psd. pose proof (Rle_0_sqr (p - r)) as q1. pose proof (Rle_0_sqr (q - m)) as q2.
    destruct hs as [hs|<-]; [|lra].
    assert (q3 : (p - r)² + (q - m)² = 0).
    { apply Rle_antisym; [|lra]. apply (Rmult_le_reg_l s'); [exact hs|]. lra. }
    assert (z1 : p - r = 0) by (apply Rsqr_0_uniq; lra). assert (z2 : q - m = 0) by (apply Rsqr_0_uniq; lra).
    replace p with r in * by lra. replace q with m in * by lra. split; lra. }
  split.
  - apply (K u w v0 v2 s); [lra|..].
    + rewrite ea, ec. transitivity (s * v0 * (u * u + w * w) + t * v1 * (u * v + w * z)); [ring|]. rewrite U0, U2. ring.
    + rewrite eb, ed. transitivity (s * v2 * (u * u + w * w) + t * v3 * (u * v + w * z)); [ring|]. rewrite U0, U2. ring.
    + rewrite ea, eb. transitivity (s * u * (v0 * v0 + v2 * v2) + t * v * (v0 * v1 + v2 * v3)); [ring|]. rewrite V0, V2. ring.
    + rewrite ec, ed. transitivity (s * w * (v0 * v0 + v2 * v2) + t * z * (v0 * v1 + v2 * v3)); [ring|]. rewrite V0, V2. ring.
  - apply (K v z v1 v3 t); [lra|..].
    + rewrite ea, ec. transitivity (s * v0 * (u * v + w * z) + t * v1 * (v * v + z * z)); [ring|]. rewrite U1, U2. ring.
    + rewrite eb, ed. transitivity (s * v2 * (u * v + w * z) + t * v3 * (v * v + z * z)); [ring|]. rewrite U1, U2. ring.
    + rewrite ea, eb. transitivity (s * u * (v0 * v1 + v2 * v3) + t * v * (v1 * v1 + v3 * v3)); [ring|]. rewrite V1, V2. ring.
    + rewrite ec, ed. transitivity (s * w * (v0 * v1 + v2 * v3) + t * z * (v1 * v1 + v3 * v3)); [ring|]. rewrite V1, V2. ring.
Qed.

(** A point of the unit circle has an angle; hence a function meeting the atan2 contract exists. *)
Definition angle (y x : R) : R := if Rle_dec 0 y then acos x else - acos x.
Lemma angle_ok : atan2_ok angle.
Proof.
  intros x y h. assert (hx : -1 <= x <= 1) by (pose proof (Rle_0_sqr y) as q; unfold Rsqr in q; split; nra).
  unfold angle. destruct (Rle_dec 0 y) as [hy|hy].
  - rewrite cos_acos, sin_acos by exact hx. split; [reflexivity|].
    replace (1 - x²) with (y * y) by (unfold Rsqr; lra). apply sqrt_square. exact hy.
  - rewrite cos_neg, sin_neg, cos_acos, sin_acos by exact hx. split; [reflexivity|].
    replace (1 - x²) with ((- y) * (- y)) by (unfold Rsqr; lra). rewrite sqrt_square by lra. ring.
Qed.

(** The ellipse with centre 0, semi-axes w and h, the first turned by theta: what plot_covariance_ellipse draws. *)
Definition on_ellipse (theta w h x y : R) : Prop :=
  exists t, x = w * cos t * cos theta - h * sin t * sin theta /\ y = w * cos t * sin theta + h * sin t * cos theta.
(** The squared Mahalanobis distance (x, y) P^-1 (x, y)^T with P = ((a, b), (b, d)). *)
Definition mahal2 (a b d x y : R) : R := (d * x * x - 2 * b * x * y + a * y * y) / (a * d - b * b).

(** ** C67. For every positive definite P and k >= 0 the call succeeds, width >= height >= 0, and (for k > 0) the points of the ellipse
    returned are exactly the points at Mahalanobis distance k. *)
Theorem C67_ellipse : forall svd atan2 a b d k, svd_ok svd a b b d -> atan2_ok atan2 ->
  0 < a -> 0 < a * d - b * b -> 0 <= k ->
  exists theta w h,
    @covariance_ellipse RO svd atan2 (m22 a b b d) k = Ok (theta, w, h) /\ 0 <= h <= w /\
    (0 < k -> 0 < h /\ forall x y, on_ellipse theta w h x y <-> mahal2 a b d x y = k * k).
Proof.
  intros svd atan2 a b d k hsvd hat ha hdet hk.
  destruct hsvd as (u & v & w & z & s & t & v0 & v1 & v2 & v3 & E & st & U0 & U1 & U2 & V0 & V1 & V2 & ea & eb & ec & ed).
  assert (hd : 0 < d) by (destruct (Rlt_le_dec 0 d) as [|hd]; [assumption|]; pose proof (Rle_0_sqr b) as q; unfold Rsqr in q; nra).
  assert (psd : forall x y, 0 <= a * x * x + 2 * b * x * y + d * y * y).
  { intros x y. apply (Rmult_le_reg_l a); [exact ha|]. rewrite Rmult_0_r.
    replace (a * (a * x * x + 2 * b * x * y + d * y * y)) with ((a * x + b * y)² + (a * d - b * b) * y²) by (unfold Rsqr; ring).
    pose proof (Rle_0_sqr (a * x + b * y)). pose proof (Rle_0_sqr y). assert (0 <= (a * d - b * b) * y²) by (apply Rmult_le_pos; lra). lra. }
  destruct (svd_eig a b d u v w z s t v0 v1 v2 v3 psd st U0 U1 U2 V0 V1 V2 ea eb ec ed) as [[e1 e2] [e3 e4]].
  (* the determinant and the entries in the eigenbasis *)
  assert (A : a = s * u * u + t * v * v /\ b = s * u * w + t * v * z /\ d = s * w * w + t * z * z).
  { assert (O : u * u + v * v = 1 /\ w * w + z * z = 1 /\ u * w + v * z = 0).
    { (* U U^T = 1 from U^T U = 1 *)
      assert (D : (u * z - v * w) * (u * z - v * w) = 1).
      { transitivity ((u * u + w * w) * (v * v + z * z) - (u * v + w * z) * (u * v + w * z)); [ring|]. rewrite U0, U1, U2. ring. }
      set (D0 := u * z - v * w) in *.
      assert (f1 : u = D0 * z) by (unfold D0; transitivity (u * (v * v + z * z) - v * (u * v + w * z)); [rewrite U1, U2; ring|ring]).
      assert (f2 : w = - D0 * v) by (unfold D0; transitivity (w * (v * v + z * z) - z * (u * v + w * z)); [rewrite U1, U2; ring|ring]).
      assert (f3 : u * u = z * z) by (rewrite f1; transitivity (D0 * D0 * (z * z)); [ring|rewrite D; ring]).
      assert (f4 : w * w = v * v) by (rewrite f2; transitivity (D0 * D0 * (v * v)); [ring|rewrite D; ring]).
      split; [lra|]. split; [lra|]. rewrite f2, f1. transitivity (v * z * (1 - D0 * D0)); [ring|rewrite D; ring]. }
    destruct O as (O1 & O2 & O3). split; [|split].
    - transitivity ((a * u + b * w) * u + (a * v + b * z) * v); [|rewrite e1, e3; ring].
      transitivity (a * (u * u + v * v) + b * (u * w + v * z)); [rewrite O1, O3; ring|ring].
    - transitivity ((a * u + b * w) * w + (a * v + b * z) * z); [|rewrite e1, e3; ring].
      transitivity (a * (u * w + v * z) + b * (w * w + z * z)); [rewrite O2, O3; ring|ring].
    - transitivity ((b * u + d * w) * w + (b * v + d * z) * z); [|rewrite e2, e4; ring].
      transitivity (b * (u * w + v * z) + d * (w * w + z * z)); [rewrite O2, O3; ring|ring]. }
  clear ea eb ec ed V0 V1 V2 v0 v1 v2 v3. destruct A as (ea & eb & ed).
  assert (D : (u * z - v * w) * (u * z - v * w) = 1).
  { transitivity ((u * u + w * w) * (v * v + z * z) - (u * v + w * z) * (u * v + w * z)); [ring|]. rewrite U0, U1, U2. ring. }
  assert (hst : a * d - b * b = s * t).
  { rewrite ea, eb, ed. transitivity (s * t * ((u * z - v * w) * (u * z - v * w))); [ring|rewrite D; ring]. }
  assert (hs : 0 < s) by (destruct (Rlt_le_dec 0 s) as [|q]; [assumption|]; exfalso; nra).
  assert (ht : 0 < t) by (destruct (Rlt_le_dec 0 t) as [|q]; [assumption|]; exfalso; nra).
  destruct (hat u w U0) as [cs0 sn0].
  exists (atan2 w u), (k * sqrt s), (k * sqrt t).
  assert (rs : 0 < sqrt s) by (apply sqrt_lt_R0; exact hs). assert (rt : 0 < sqrt t) by (apply sqrt_lt_R0; exact ht).
  assert (le : k * sqrt t <= k * sqrt s) by (apply Rmult_le_compat_l; [exact hk|apply sqrt_le_1; lra]).
  split; [|split; [split; [apply Rmult_le_pos; lra|exact le]|]].
  { unfold covariance_ellipse. rewrite E. cbn [rbind]. unfold py_sqrt. cbn [so RO sltb RS s0 ssqrt smul listO].
    assert (G1 : Rltb s 0 = false) by (apply Rltb_false; lra). assert (G2 : Rltb t 0 = false) by (apply Rltb_false; lra).
    assert (G3 : Rltb (k * sqrt s) (k * sqrt t) = false) by (apply Rltb_false; exact le).
    change (sltb RS) with Rltb. change (Ops.s0 RS) with 0.
    rewrite G1, G2. cbn [rbind]. change (sltb RS) with Rltb. change (smul RS) with Rmult. change (ssqrt RS) with sqrt. rewrite G3. reflexivity. }
  intros kp. split; [apply Rmult_lt_0_compat; lra|].
  (* the distance in the eigenbasis *)
  assert (M : forall x y, mahal2 a b d x y = (u * x + w * y)² / s + (u * y - w * x)² / t).
  { intros x y. unfold mahal2. rewrite hst.
    (* second eigenvector is +- the first one turned by a right angle *)
    assert (vz : v * v = w * w /\ z * z = u * u /\ v * z = - (u * w)).
    { set (D0 := u * z - v * w) in *.
      assert (f1 : u = D0 * z) by (unfold D0; transitivity (u * (v * v + z * z) - v * (u * v + w * z)); [rewrite U1, U2; ring|ring]).
      assert (f2 : w = - D0 * v) by (unfold D0; transitivity (w * (v * v + z * z) - z * (u * v + w * z)); [rewrite U1, U2; ring|ring]).
      split; [rewrite f2; transitivity (D0 * D0 * (v * v)); [rewrite D; ring|ring]|].
      split; [rewrite f1; transitivity (D0 * D0 * (z * z)); [rewrite D; ring|ring]|].
      rewrite f2, f1. transitivity (D0 * D0 * (v * z)); [rewrite D; ring|ring]. }
    destruct vz as (z1 & z2 & z3).
    assert (N : d * x * x - 2 * b * x * y + a * y * y = t * (u * x + w * y)² + s * (u * y - w * x)²).
    { rewrite ea, eb, ed. unfold Rsqr.
      transitivity ((s * w * w + t * (z * z)) * x * x - 2 * (s * u * w + t * (v * z)) * x * y + (s * u * u + t * (v * v)) * y * y); [ring|].
      rewrite z1, z2, z3. ring. }
    rewrite N. field. lra. }
  intros x y. rewrite M. unfold on_ellipse. rewrite cs0, sn0.
  assert (qs : sqrt s * sqrt s = s) by (apply sqrt_sqrt; lra). assert (qt : sqrt t * sqrt t = t) by (apply sqrt_sqrt; lra).
  split.
  - intros (r & -> & ->).
    assert (p1 : u * (k * sqrt s * cos r * u - k * sqrt t * sin r * w) + w * (k * sqrt s * cos r * w + k * sqrt t * sin r * u) = k * sqrt s * cos r)
      by (transitivity (k * sqrt s * cos r * (u * u + w * w)); [ring|rewrite U0; ring]).
    assert (p2 : u * (k * sqrt s * cos r * w + k * sqrt t * sin r * u) - w * (k * sqrt s * cos r * u - k * sqrt t * sin r * w) = k * sqrt t * sin r)
      by (transitivity (k * sqrt t * sin r * (u * u + w * w)); [ring|rewrite U0; ring]).
    rewrite p1, p2. unfold Rsqr. pose proof (sin2_cos2 r) as sc. unfold Rsqr in sc.
    transitivity (k * k * ((sqrt s * sqrt s) / s * (cos r * cos r) + (sqrt t * sqrt t) / t * (sin r * sin r))); [field; lra|].
    rewrite qs, qt. transitivity (k * k * (sin r * sin r + cos r * cos r)); [field; lra|rewrite sc; ring].
  - intros H. set (p := u * x + w * y) in *. set (q := u * y - w * x) in *.
    assert (one : p / (k * sqrt s) * (p / (k * sqrt s)) + q / (k * sqrt t) * (q / (k * sqrt t)) = 1).
    { transitivity ((p² / (sqrt s * sqrt s) + q² / (sqrt t * sqrt t)) / (k * k)); [unfold Rsqr; field; lra|].
      rewrite qs, qt, H. field. lra. }
    exists (angle (q / (k * sqrt t)) (p / (k * sqrt s))). destruct (angle_ok _ _ one) as [-> ->].
    unfold p, q. split.
    + transitivity (x * (u * u + w * w)); [rewrite U0; ring|field; lra].
    + transitivity (y * (u * u + w * w)); [rewrite U0; ring|field; lra].
Qed.
Print Assumptions C67_ellipse.

(** The call in terms of the singular values. *)
Lemma ellipse_call svd atan2 a b c d k u v w z s t : svd (m22 a b c d) = Ok (m22 u v w z, (s, t)) -> 0 <= t <= s ->
  @covariance_ellipse RO svd atan2 (m22 a b c d) k =
  if Rlt_dec (k * sqrt s) (k * sqrt t) then Err ValueError else Ok (atan2 w u, k * sqrt s, k * sqrt t).
Proof.
  intros E st. unfold covariance_ellipse. rewrite E. cbn [rbind]. unfold py_sqrt.
  assert (G1 : Rltb s 0 = false) by (apply Rltb_false; lra). assert (G2 : Rltb t 0 = false) by (apply Rltb_false; lra).
  change (sltb RO) with Rltb. change (s0 RO) with 0. rewrite G1, G2. cbn [rbind]. change (smul RO) with Rmult. change (ssqrt RO) with sqrt.
  unfold Rltb. destruct (Rlt_dec _ _); reflexivity.
Qed.

(** A negative number of deviations is rejected, with a message about width and height, unless P is a multiple of the
    identity: the radii come out negative there. *)
Theorem C67_negative_deviations : forall svd atan2 a b d k, svd_ok svd a b b d -> 0 < a -> 0 < a * d - b * b -> k < 0 ->
  (a = d /\ b = 0 -> exists theta, @covariance_ellipse RO svd atan2 (m22 a b b d) k = Ok (theta, k * sqrt a, k * sqrt a)) /\
  (~ (a = d /\ b = 0) -> @covariance_ellipse RO svd atan2 (m22 a b b d) k = Err ValueError).
Proof.
  intros svd atan2 a b d k hsvd ha hdet hk.
  destruct hsvd as (u & v & w & z & s & t & v0 & v1 & v2 & v3 & E & st & U0 & U1 & U2 & V0 & V1 & V2 & ea & eb & ec & ed).
  rewrite (ellipse_call _ atan2 _ _ _ _ k _ _ _ _ _ _ E st).
  (* Frobenius norm and determinant *)
  assert (F1 : a * a + b * b + b * b + d * d = s * s + t * t).
  { transitivity (s * s * (u * u + w * w) * (v0 * v0 + v2 * v2) + t * t * (v * v + z * z) * (v1 * v1 + v3 * v3) + 2 * s * t * (u * v + w * z) * (v0 * v1 + v2 * v3)).
    - rewrite ea at 1 2. rewrite eb at 1 2. rewrite ec at 1 2. rewrite ed. ring.
    - rewrite U0, U1, U2, V0, V1, V2. ring. }
  assert (F2 : (a * d - b * b) * (a * d - b * b) = (s * t) * (s * t)).
  { assert (D1 : (u * z - v * w) * (u * z - v * w) = 1).
    { transitivity ((u * u + w * w) * (v * v + z * z) - (u * v + w * z) * (u * v + w * z)); [ring|]. rewrite U0, U1, U2. ring. }
    assert (D2 : (v0 * v3 - v1 * v2) * (v0 * v3 - v1 * v2) = 1).
    { transitivity ((v0 * v0 + v2 * v2) * (v1 * v1 + v3 * v3) - (v0 * v1 + v2 * v3) * (v0 * v1 + v2 * v3)); [ring|]. rewrite V0, V1, V2. ring. }
    transitivity ((s * t) * (s * t) * ((u * z - v * w) * (u * z - v * w)) * ((v0 * v3 - v1 * v2) * (v0 * v3 - v1 * v2))); [|rewrite D1, D2; ring].
    assert (e : a * d - b * b = s * t * (u * z - v * w) * (v0 * v3 - v1 * v2)).
    { transitivity (a * d - (u * s * v2 + v * t * v3) * (w * s * v0 + z * t * v1)); [rewrite <- eb, <- ec; reflexivity|]. rewrite ea, ed. ring. }
    rewrite e. ring. }
  clear ea eb ec ed.
  assert (F3 : a * d - b * b = s * t).
  { apply Rsqr_inj; [lra|apply Rmult_le_pos; lra|exact F2]. }
  assert (hd : 0 < d) by (destruct (Rlt_le_dec 0 d) as [|hd]; [assumption|]; pose proof (Rle_0_sqr b) as q; unfold Rsqr in q; nra).
  assert (F4 : (s - t) * (s - t) = (a - d) * (a - d) + 4 * (b * b)) by lra.
  split.
  - intros [-> ->]. assert (e : s - t = 0) by (apply Rsqr_0_uniq; unfold Rsqr; lra).
    assert (s = d) by (apply Rsqr_inj; [lra|lra|unfold Rsqr; replace t with s in * by lra; lra]).
    replace t with s in * by lra. subst s.
    destruct (Rlt_dec _ _) as [q|q]; [lra|]. eexists; reflexivity.
  - intros ne. assert (lt : t < s).
    { destruct (Rlt_le_dec t s) as [|q]; [assumption|]. exfalso. apply ne. assert (s = t) by lra. subst s.
      pose proof (Rle_0_sqr (a - d)) as q1. pose proof (Rle_0_sqr b) as q2. unfold Rsqr in q1, q2.
      split; [cut (a - d = 0); [lra|]|]; apply Rsqr_0_uniq; unfold Rsqr; lra. }
    destruct (Rlt_dec _ _) as [q|q]; [reflexivity|]. exfalso. apply q.
    assert (sqrt t < sqrt s) by (apply sqrt_lt_1; lra). apply Rmult_lt_gt_compat_neg_l; lra.
Qed.
Print Assumptions C67_negative_deviations.

(** A matrix that is not a covariance is not noticed: for P = diag(1, -1) the call returns a circle of radius k, and the
    point (0, k) of that circle has (x, y) P^-1 (x, y)^T = -k^2. *)
Theorem C67_indefinite_refuted : forall svd atan2 k, svd_ok svd 1 0 0 (-1) -> atan2_ok atan2 -> 0 < k ->
  exists theta, @covariance_ellipse RO svd atan2 (m22 1 0 0 (-1)) k = Ok (theta, k, k) /\
    on_ellipse theta k k 0 k /\ mahal2 1 0 (-1) 0 k = - (k * k).
Proof.
  intros svd atan2 k hsvd hat hk.
  destruct hsvd as (u & v & w & z & s & t & v0 & v1 & v2 & v3 & E & st & U0 & U1 & U2 & V0 & V1 & V2 & ea & eb & ec & ed).
  assert (F1 : 2 = s * s + t * t).
  { transitivity ((u * s * v0 + v * t * v1) * (u * s * v0 + v * t * v1) + (u * s * v2 + v * t * v3) * (u * s * v2 + v * t * v3)
      + (w * s * v0 + z * t * v1) * (w * s * v0 + z * t * v1) + (w * s * v2 + z * t * v3) * (w * s * v2 + z * t * v3)).
    - rewrite <- ea, <- eb, <- ec, <- ed. ring.
    - transitivity (s * s * (u * u + w * w) * (v0 * v0 + v2 * v2) + t * t * (v * v + z * z) * (v1 * v1 + v3 * v3) + 2 * s * t * (u * v + w * z) * (v0 * v1 + v2 * v3)); [ring|].
      rewrite U0, U1, U2, V0, V1, V2. ring. }
  assert (F2 : 1 = (s * t) * (s * t)).
  { assert (D1 : (u * z - v * w) * (u * z - v * w) = 1).
    { transitivity ((u * u + w * w) * (v * v + z * z) - (u * v + w * z) * (u * v + w * z)); [ring|]. rewrite U0, U1, U2. ring. }
    assert (D2 : (v0 * v3 - v1 * v2) * (v0 * v3 - v1 * v2) = 1).
    { transitivity ((v0 * v0 + v2 * v2) * (v1 * v1 + v3 * v3) - (v0 * v1 + v2 * v3) * (v0 * v1 + v2 * v3)); [ring|]. rewrite V0, V1, V2. ring. }
    transitivity ((s * t) * (s * t) * ((u * z - v * w) * (u * z - v * w)) * ((v0 * v3 - v1 * v2) * (v0 * v3 - v1 * v2))); [|rewrite D1, D2; ring].
    assert (e : -1 = s * t * (u * z - v * w) * (v0 * v3 - v1 * v2)).
    { transitivity ((u * s * v0 + v * t * v1) * (w * s * v2 + z * t * v3) - (u * s * v2 + v * t * v3) * (w * s * v0 + z * t * v1)); [rewrite <- ea, <- eb, <- ec, <- ed; ring|ring]. }
    transitivity ((-1) * (-1)); [ring|]. rewrite e. ring. }
  assert (F3 : s * t = 1). { apply Rsqr_inj; [apply Rmult_le_pos; lra|lra|unfold Rsqr; lra]. }
  assert (F4 : s - t = 0) by (apply Rsqr_0_uniq; unfold Rsqr; lra).
  assert (F5 : s = 1) by (apply Rsqr_inj; [lra|lra|unfold Rsqr; replace t with s in F3 by lra; lra]).
  exists (atan2 w u). rewrite (ellipse_call _ atan2 _ _ _ _ k _ _ _ _ _ _ E st).
  replace t with 1 in * by lra. subst s. rewrite sqrt_1, !Rmult_1_r. destruct (Rlt_dec k k) as [q|_]; [lra|].
  split; [reflexivity|]. destruct (hat u w U0) as [cs0 sn0]. unfold on_ellipse, mahal2. rewrite cs0, sn0. split; [|field].
  assert (one : w * w + u * u = 1) by lra.
  exists (angle u w). destruct (angle_ok w u one) as [-> ->]. split; [ring|]. transitivity (k * (u * u + w * w)); [rewrite U0; ring|ring].
Qed.
Print Assumptions C67_indefinite_refuted.

(** Cases that meet the hypotheses: ((2, 1), (1, 2)) = 3 u u^T + 1 v v^T with u = (1, 1)/sqrt 2, and diag(1, -1). *)
Example C67_applies : let q := / sqrt 2 in
  svd_ok (fun _ => Ok (m22 q (- q) q q, (3, 1))) 2 1 1 2 /\ svd_ok (fun _ => Ok (m22 1 0 0 1, (1, 1))) 1 0 0 (-1) /\ atan2_ok angle.
Proof.
  cbv zeta. set (q := / sqrt 2).
  assert (h : q * q = / 2). { unfold q. rewrite <- Rinv_mult_distr by (apply Rgt_not_eq, sqrt_lt_R0; lra). f_equal. apply sqrt_sqrt. lra. }
  split; [|split; [|exact angle_ok]].
  - exists q, (- q), q, q, 3, 1, q, (- q), q, q. repeat split; try lra; reflexivity.
  - exists 1, 0, 0, 1, 1, 1, 1, 0, 0, (-1). repeat split; lra.
Qed.
