(** * Lemmas for the scalar filters. *)
From Coq Require Import List Reals Lra Lia Psatz Arith.
From Verif Require Import Ops RealOps Model_GH Spec_GH.
Import ListNotations.
Open Scope R_scope.

Lemma half_R : half RS = / 2. Proof. unfold half; rs; lra. Qed.
Lemma three_halves_R : three_halves RS = 3 / 2. Proof. unfold three_halves; rs; lra. Qed.
Ltac rgo := rewrite ?half_R, ?three_halves_R in *; rs.

Lemma ex_plus A (e : list (R * A)) f g : ex e (fun a => f a + g a) = ex e f + ex e g.
Proof. induction e as [|[w a] e IH]; simpl; [lra|]. rewrite IH. ring. Qed.
Lemma ex_scal A (e : list (R * A)) c f : ex e (fun a => c * f a) = c * ex e f.
Proof. induction e as [|[w a] e IH]; simpl; [lra|]. rewrite IH. ring. Qed.
Lemma ex_ext A (e : list (R * A)) f g : Forall (fun wa => f (snd wa) = g (snd wa)) e -> ex e f = ex e g.
Proof. induction 1 as [|[w a] e H Hs IH]; simpl in *; [reflexivity|]. rewrite H, IH. reflexivity. Qed.
Lemma ex_emap A B (f : A -> B) (e : list (R * A)) g : ex (emap f e) g = ex e (fun a => g (f a)).
Proof. induction e as [|[w a] e IH]; simpl; [reflexivity|]. rewrite IH; reflexivity. Qed.

Lemma asum_shift f a zs : asum f (S a) zs = asum (fun a => f (S a)) a zs.
Proof. revert a; induction zs as [|z zs IH]; intros a; simpl; [reflexivity|]. rewrite IH. reflexivity. Qed.
Lemma asum_plus f g a zs : asum (fun a z => f a z + g a z) a zs = asum f a zs + asum g a zs.
Proof. revert a; induction zs as [|z zs IH]; intros a; simpl; [lra|]. rewrite IH. ring. Qed.
Lemma asum_scal c f a zs : asum (fun a z => c * f a z) a zs = c * asum f a zs.
Proof. revert a; induction zs as [|z zs IH]; intros a; simpl; [lra|]. rewrite IH. ring. Qed.
Lemma asum_ext f g a zs : (forall a z, f a z = g a z) -> asum f a zs = asum g a zs.
Proof. intros H; revert a; induction zs as [|z zs IH]; intros a; simpl; [lra|]. rewrite IH, H. ring. Qed.
Lemma asum_app f a zs z : asum f a (zs ++ [z]) = asum f a zs + f (a + length zs)%nat z.
Proof.
  revert a; induction zs as [|y zs IH]; intros a; simpl; [rewrite Nat.add_0_r; lra|].
  rewrite IH. replace (S a + length zs)%nat with (a + S (length zs))%nat by lia. ring.
Qed.
Lemma asum_nonneg f a zs : (forall a z, 0 <= f a z) -> 0 <= asum f a zs.
Proof. intros H; revert a; induction zs as [|z zs IH]; intros a; simpl; [lra|]. pose proof (H a z); pose proof (IH (S a)). lra. Qed.
Lemma asum_zero f zs : (forall a z, 0 <= f a z) -> asum f 0 zs = 0 ->
  forall k, (k < length zs)%nat -> exists z, f k z = 0.
Proof.
  intros H. cut (forall a, asum f a zs = 0 -> forall k, (k < length zs)%nat -> exists z, f (a + k)%nat z = 0).
  { intros G H0 k Hk. destruct (G 0%nat H0 k Hk) as [z Hz]. exists z; exact Hz. }
  induction zs as [|z zs IH]; intros a H0 k Hk; simpl in *; [lia|].
  pose proof (H a z) as H1. pose proof (asum_nonneg f (S a) zs H) as H2.
  destruct k as [|k].
  - exists z. rewrite Nat.add_0_r. lra.
  - replace (a + S k)%nat with (S a + k)%nat by lia. apply IH; [lra|lia].
Qed.

(** Sums of powers of the ages. *)
Definition psum (p : nat) (zs : list R) := asum (fun a _ => INR a ^ p) 0 zs.
Lemma psum_closed zs : let n := INR (length zs) in
  psum 0 zs = n /\ psum 1 zs = n * (n - 1) / 2 /\ psum 2 zs = n * (n - 1) * (2 * n - 1) / 6 /\
  psum 3 zs = (n * (n - 1) / 2) ^ 2 /\ psum 4 zs = n * (n - 1) * (2 * n - 1) * (3 * n ^ 2 - 3 * n - 1) / 30.
Proof.
  induction zs as [|z zs IH] using rev_ind; [cbn; repeat split; lra|].
  cbn zeta in *. unfold psum in *. rewrite !asum_app, app_length. cbn [length]. rewrite !plus_INR.
  destruct IH as (-> & -> & -> & -> & ->). change (INR 1) with 1. change (INR 0) with 0.
  repeat split; field.
Qed.

(** Moments of the residuals. *)
Definition mom (p : nat) (q : nat -> R) (zs : list R) := asum (fun a z => INR a ^ p * (z - q a)) 0 zs.

Lemma mom_step p q q' y kap z zs : q' 0%nat = z - y + y * kap 0%nat ->
  (forall a, q' (S a) = q a + y * kap (S a)) ->
  mom p q' (z :: zs) = 0 ^ p * y - y * asum (fun a _ => INR a ^ p * kap a) 0 (z :: zs)
    + asum (fun a z => (INR a + 1) ^ p * (z - q a)) 0 zs.
Proof.
  intros H0 HS. unfold mom. cbn [asum]. rewrite H0.
  rewrite !asum_shift.
  rewrite (asum_ext (fun a z0 => INR (S a) ^ p * (z0 - q' (S a)))
    (fun a z0 => (INR a + 1) ^ p * (z0 - q a) + (- y) * (INR (S a) ^ p * kap (S a)))).
  2:{ intros a z0. rewrite HS, S_INR. ring. }
  rewrite asum_plus, asum_scal. cbn [INR]. ring.
Qed.

Lemma old_moments q zs :
  asum (fun a z => (INR a + 1) ^ 0 * (z - q a)) 0 zs = mom 0 q zs /\
  asum (fun a z => (INR a + 1) ^ 1 * (z - q a)) 0 zs = mom 1 q zs + mom 0 q zs /\
  asum (fun a z => (INR a + 1) ^ 2 * (z - q a)) 0 zs = mom 2 q zs + 2 * mom 1 q zs + mom 0 q zs.
Proof.
  unfold mom. repeat split.
  - rewrite <- asum_plus. apply asum_ext; intros; ring.
  - rewrite <- asum_scal, <- !asum_plus. apply asum_ext; intros; ring.
Qed.

Lemma kap_sum p k0 k1 k2 zs :
  asum (fun a _ => INR a ^ p * (k0 - k1 * INR a + k2 * INR a ^ 2 / 2)) 0 zs =
  k0 * psum p zs - k1 * psum (S p) zs + k2 / 2 * psum (S (S p)) zs.
Proof.
  unfold psum. replace (k0 * asum (fun a _ => INR a ^ p) 0 zs - k1 * asum (fun a _ => INR a ^ S p) 0 zs)
    with (k0 * asum (fun a _ => INR a ^ p) 0 zs + (- k1) * asum (fun a _ => INR a ^ S p) 0 zs) by ring.
  rewrite <- !asum_scal, <- !asum_plus. apply asum_ext; intros; cbn [pow]; field.
Qed.

(** The normal equations imply the least-squares property. *)
Definition normal (order : nat) (q : nat -> R) (zs : list R) : Prop :=
  mom 0 q zs = 0 /\ ((1 <= order)%nat -> mom 1 q zs = 0) /\ ((2 <= order)%nat -> mom 2 q zs = 0).

Lemma sse_split order dt c0 c1 c2 d0 d1 d2 zs : degree_le order c1 c2 -> degree_le order d1 d2 ->
  normal order (poly dt c0 c1 c2) (rev zs) ->
  sse (poly dt d0 d1 d2) zs = sse (poly dt c0 c1 c2) zs
    + asum (fun a _ => (poly dt c0 c1 c2 a - poly dt d0 d1 d2 a) ^ 2) 0 (rev zs).
Proof.
  intros [c1z c2z] [d1z d2z] (n0 & n1 & n2). unfold sse.
  set (q := poly dt c0 c1 c2) in *.
  assert (E : asum (fun a z => (z - poly dt d0 d1 d2 a) ^ 2) 0 (rev zs) =
    asum (fun a z => (z - q a) ^ 2) 0 (rev zs)
    + asum (fun a _ => (q a - poly dt d0 d1 d2 a) ^ 2) 0 (rev zs)
    + (2 * (c0 - d0) * mom 0 q (rev zs) + (- (2 * (c1 - d1) * dt)) * mom 1 q (rev zs)
       + (c2 - d2) * dt ^ 2 * mom 2 q (rev zs))).
  { unfold mom. rewrite <- !asum_scal, <- !asum_plus. apply asum_ext; intros a z.
    replace (poly dt d0 d1 d2 a) with (q a - ((c0 - d0) - (c1 - d1) * (INR a * dt) + (c2 - d2) * (INR a * dt) ^ 2 / 2))
      by (unfold q, poly; field).
    field. }
  rewrite E. rewrite n0.
  destruct order as [|[|order]].
  - rewrite c1z, c2z, d1z, d2z by lia. ring.
  - rewrite c2z, d2z, n1 by lia. ring.
  - rewrite n1, n2 by lia. ring.
Qed.

Lemma normal_best order dt c0 c1 c2 zs : degree_le order c1 c2 ->
  normal order (poly dt c0 c1 c2) (rev zs) -> best_poly order dt zs c0 c1 c2.
Proof.
  intros Hd Hn. split; [exact Hd|]. intros d0 d1 d2 Hd'.
  rewrite (sse_split order dt c0 c1 c2 d0 d1 d2 zs Hd Hd' Hn).
  pose proof (asum_nonneg (fun a _ => (poly dt c0 c1 c2 a - poly dt d0 d1 d2 a) ^ 2) 0 (rev zs)
    (fun a _ => pow2_ge_0 _)). lra.
Qed.

Lemma normal_unique order dt c0 c1 c2 zs : (order <= 2)%nat -> dt <> 0 -> (order < length zs)%nat ->
  degree_le order c1 c2 -> normal order (poly dt c0 c1 c2) (rev zs) -> only_best_poly order dt zs c0 c1 c2.
Proof.
  intros Ho Hdt Hl Hd Hn d0 d1 d2 [Hd' Hb].
  pose proof (Hb c0 c1 c2 Hd) as H1.
  rewrite (sse_split order dt c0 c1 c2 d0 d1 d2 zs Hd Hd' Hn) in H1.
  set (f := fun (a : nat) (_ : R) => (poly dt c0 c1 c2 a - poly dt d0 d1 d2 a) ^ 2) in *.
  assert (Hf : forall a z, 0 <= f a z) by (intros; apply pow2_ge_0).
  assert (H2 : asum f 0 (rev zs) = 0) by (pose proof (asum_nonneg f 0 (rev zs) Hf); lra).
  pose proof (asum_zero f (rev zs) Hf H2) as H3. rewrite rev_length in H3.
  assert (Hz : forall k, (k < length zs)%nat -> poly dt c0 c1 c2 k = poly dt d0 d1 d2 k).
  { intros k Hk. destruct (H3 k Hk) as [z Hz]. unfold f in Hz.
    assert (poly dt c0 c1 c2 k - poly dt d0 d1 d2 k = 0) by (apply Rsqr_0_uniq; unfold Rsqr; lra). lra. }
  destruct Hd as [c1z c2z], Hd' as [d1z d2z].
  assert (E0 := Hz 0%nat ltac:(lia)). unfold poly in E0. cbn [INR] in E0.
  assert (e0 : d0 = c0) by lra. split; [exact e0|].
  destruct order as [|[|order]].
  - rewrite c1z, c2z, d1z, d2z by lia. split; reflexivity.
  - rewrite c2z, d2z by lia. split; [|reflexivity].
    assert (E1 := Hz 1%nat ltac:(lia)). unfold poly in E1. rewrite c2z, d2z in E1 by lia. cbn [INR] in E1.
    apply (Rmult_eq_reg_r dt); [lra|exact Hdt].
  - assert (E1 := Hz 1%nat ltac:(lia)). assert (E2 := Hz 2%nat ltac:(lia)).
    unfold poly in E1, E2. change (INR 1) with 1 in E1. change (INR 2) with 2 in E2.
    assert (e2 : d2 * dt ^ 2 = c2 * dt ^ 2) by nra.
    assert (e1 : d1 * dt = c1 * dt) by nra.
    split; [apply (Rmult_eq_reg_r dt); assumption|].
    apply (Rmult_eq_reg_r (dt ^ 2)); [exact e2|]. apply pow_nonzero; exact Hdt.
Qed.

(** The least-squares gains in the form (k0, k1, k2) with k1, k2 scaled by dt. *)
Lemma normal_step order dt c0 c1 c2 k0 k1 k2 z zs : dt <> 0 ->
  let N := INR (S (length zs)) in
  (order <= 2)%nat ->
  (order = 0%nat -> c1 = 0 /\ c2 = 0 /\ k0 = 1 / N /\ k1 = 0 /\ k2 = 0) ->
  (order = 1%nat -> c2 = 0 /\ k0 = 2 * (2 * N - 1) / (N * (N + 1)) /\ k1 = 6 / (N * (N + 1)) /\ k2 = 0) ->
  (order = 2%nat -> k0 = 3 * (3 * N ^ 2 - 3 * N + 2) / (N * (N + 1) * (N + 2)) /\
     k1 = 18 * (2 * N - 1) / (N * (N + 1) * (N + 2)) /\ k2 = 60 / (N * (N + 1) * (N + 2))) ->
  normal order (poly dt c0 c1 c2) zs ->
  let xp := c0 + c1 * dt + c2 * dt ^ 2 / 2 in
  let y := z - xp in
  normal order (poly dt (xp + k0 * y) (c1 + c2 * dt + k1 * y / dt) (c2 + k2 * y / dt ^ 2)) (z :: zs).
Proof.
  intros Hdt N Ho h0 h1 h2 (m0 & m1 & m2) xp y.
  set (q := poly dt c0 c1 c2) in *.
  set (q' := poly dt _ _ _).
  set (kap := fun a => k0 - k1 * INR a + k2 * INR a ^ 2 / 2).
  assert (Hst : forall p, mom p q' (z :: zs) = 0 ^ p * y - y * asum (fun a _ => INR a ^ p * kap a) 0 (z :: zs)
    + asum (fun a z => (INR a + 1) ^ p * (z - q a)) 0 zs).
  { intros p. apply mom_step.
    - unfold q', poly, kap, y. cbn [INR]. field. exact Hdt.
    - intros a. unfold q', q, poly, kap, xp. rewrite S_INR. field. exact Hdt. }
  destruct (old_moments q zs) as (o0 & o1 & o2).
  destruct (psum_closed (z :: zs)) as (p0 & p1 & p2 & p3 & p4). cbn [length] in *. fold N in p0, p1, p2, p3, p4.
  assert (HN : 1 <= N) by (unfold N; rewrite S_INR; pose proof (pos_INR (length zs)); lra).
  unfold normal. rewrite !Hst. unfold kap. rewrite !kap_sum, o0, o1, o2, p0, p1, p2, p3, p4, m0.
  assert (HN1 : N <> 0) by lra. assert (HN2 : N + 1 <> 0) by lra. assert (HN3 : N + 2 <> 0) by lra.
  clearbody N y. clear - h0 h1 h2 m1 m2 Ho HN1 HN2 HN3.
  destruct order as [|[|[|order]]]; [| | |lia].
  - destruct (h0 eq_refl) as (_ & _ & -> & -> & ->). repeat split; try (intros; lia). cbn [pow]. field; assumption.
  - destruct (h1 eq_refl) as (_ & -> & -> & ->). rewrite m1 by lia. repeat split; try (intros; lia); intros; field; auto.
  - destruct (h2 eq_refl) as (-> & -> & ->). rewrite m1, m2 by lia. repeat split; intros; field; auto.
Qed.
