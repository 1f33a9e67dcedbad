(** * Linear recurrences over the reals: when all solutions vanish. *)
From Coq Require Import Reals Lra Lia Psatz.
Open Scope R_scope.

Definition vanishes (u : nat -> R) : Prop := Un_cv u 0.

Definition rec1 (r : R) (u : nat -> R) : Prop := forall n, u (S n) = r * u n.
Definition rec2 (t d : R) (u : nat -> R) : Prop := forall n, u (S (S n)) = t * u (S n) - d * u n.
Definition rec3 (a b c : R) (u : nat -> R) : Prop :=
  forall n, u (S (S (S n))) + a * u (S (S n)) + b * u (S n) + c * u n = 0.

Lemma vanishes_ext u v : (forall n, u n = v n) -> vanishes u -> vanishes v.
Proof. intros E H e He. destruct (H e He) as [N HN]. exists N. intros n Hn. rewrite <- E. auto. Qed.

Lemma vanishes_lin a u b v : vanishes u -> vanishes v -> vanishes (fun n => a * u n + b * v n).
Proof.
  intros Hu Hv. unfold vanishes in *.
  replace 0 with (a * 0 + b * 0) by ring.
  apply (CV_plus (fun n => a * u n) (fun n => b * v n)).
  - apply (CV_mult (fun _ => a) u); [|exact Hu]. intros e He. exists O. intros n _.
    unfold R_dist. rewrite Rminus_eq_0, Rabs_R0. exact He.
  - apply (CV_mult (fun _ => b) v); [|exact Hv]. intros e He. exists O. intros n _.
    unfold R_dist. rewrite Rminus_eq_0, Rabs_R0. exact He.
Qed.

Lemma vanishes_mult u v : vanishes u -> vanishes v -> vanishes (fun n => u n * v n).
Proof. intros Hu Hv. unfold vanishes. replace 0 with (0 * 0) by ring. apply CV_mult; assumption. Qed.

Lemma vanishes_shift u : vanishes u -> vanishes (fun n => u (S n)).
Proof. intros H e He. destruct (H e He) as [N HN]. exists N. intros n Hn. apply HN. lia. Qed.

Lemma vanishes_pow r : vanishes (fun n => r ^ n) <-> Rabs r < 1.
Proof.
  split.
  - intros H. destruct (Rlt_dec (Rabs r) 1) as [L|L]; [exact L|]. exfalso.
    destruct (H 1 Rlt_0_1) as [N HN]. specialize (HN N (le_n N)).
    unfold R_dist in HN. rewrite Rminus_0_r, <- RPow_abs in HN.
    assert (1 <= Rabs r ^ N) by (apply pow_R1_Rle; lra). lra.
  - intros H e He. destruct (pow_lt_1_zero r H e He) as [N HN]. exists N. intros n Hn.
    unfold R_dist. rewrite Rminus_0_r. apply HN. exact Hn.
Qed.

(** A stable first-order filter of a vanishing input vanishes. *)
Lemma filter1 r (f u : nat -> R) : Rabs r < 1 -> vanishes f ->
  (forall n, u (S n) = r * u n + f n) -> vanishes u.
Proof.
  intros Hr Hf Hu e He. set (q := Rabs r) in *. assert (Hq : 0 <= q) by apply Rabs_pos.
  assert (He' : 0 < e * (1 - q) / 2) by (assert (0 < e * (1 - q)) by (apply Rmult_lt_0_compat; lra); lra).
  destruct (Hf _ He') as [N HN].
  assert (B : forall k, Rabs (u (N + k)%nat) <= q ^ k * Rabs (u N) + e / 2).
  { induction k as [|k IH].
    - rewrite Nat.add_0_r. cbn [pow]. lra.
    - rewrite Nat.add_succ_r, Hu.
      eapply Rle_trans; [apply Rabs_triang|]. rewrite Rabs_mult. fold q.
      assert (F : Rabs (f (N + k)%nat) < e * (1 - q) / 2).
      { assert (K : (N + k >= N)%nat) by lia. specialize (HN _ K). unfold R_dist in HN.
        rewrite Rminus_0_r in HN. exact HN. }
      pose proof (Rmult_le_compat_l q _ _ Hq IH) as M. cbn [pow]. lra. }
  destruct (Req_dec (u N) 0) as [Z|Z].
  - exists N. intros n Hn. unfold R_dist. rewrite Rminus_0_r.
    replace n with (N + (n - N))%nat by lia. specialize (B (n - N)%nat). rewrite Z, Rabs_R0 in B. lra.
  - assert (P : 0 < Rabs (u N)) by (apply Rabs_pos_lt; exact Z).
    assert (Q : 0 < e / 4 / Rabs (u N)) by (apply Rdiv_lt_0_compat; lra).
    destruct (proj2 (vanishes_pow r) Hr _ Q) as [K HK].
    exists (N + K)%nat. intros n Hn. unfold R_dist. rewrite Rminus_0_r.
    replace n with (N + (n - N))%nat by lia. specialize (B (n - N)%nat).
    assert (G : (n - N >= K)%nat) by lia. specialize (HK _ G). unfold R_dist in HK.
    rewrite Rminus_0_r, <- RPow_abs in HK. fold q in HK.
    assert (q ^ (n - N) * Rabs (u N) < e / 4).
    { apply (Rmult_lt_compat_r _ _ _ P) in HK. replace (e / 4 / Rabs (u N) * Rabs (u N)) with (e / 4) in HK by (field; lra).
      exact HK. }
    lra.
Qed.

(** ** Second order *)
Definition schur2 (t d : R) : Prop := d < 1 /\ 0 < 1 - t + d /\ 0 < 1 + t + d.

Lemma real_roots t d : 0 <= t * t - 4 * d -> exists p q, t = p + q /\ d = p * q.
Proof.
  intros H. exists ((t + sqrt (t * t - 4 * d)) / 2), ((t - sqrt (t * t - 4 * d)) / 2).
  split; [field|]. pose proof (sqrt_sqrt _ H) as E. set (w := sqrt _) in *. clearbody w.
  replace ((t + w) / 2 * ((t - w) / 2)) with ((t * t - w * w) / 4) by field. rewrite E. field.
Qed.

Lemma schur2_roots p q : schur2 (p + q) (p * q) <-> Rabs p < 1 /\ Rabs q < 1.
Proof.
  unfold schur2. split.
  - intros (A & B & C).
    assert (B' : 0 < (1 - p) * (1 - q)) by lra. assert (C' : 0 < (1 + p) * (1 + q)) by lra. clear B C.
    assert (K : (-1 < p < 1) /\ (-1 < q < 1)).
    { destruct (Rlt_dec p 1), (Rlt_dec q 1), (Rlt_dec (-1) p), (Rlt_dec (-1) q); try lra; exfalso; nra. }
    split; apply Rabs_def1; lra.
  - intros [A B]. apply Rabs_def2 in A, B. repeat split; nra.
Qed.

Lemma rec2_vanishes t d u : schur2 t d -> rec2 t d u -> vanishes u.
Proof.
  intros St H. destruct (Rle_dec 0 (t * t - 4 * d)) as [D|D].
  - destruct (real_roots t d D) as (p & q & -> & ->). apply schur2_roots in St as [Sp Sq].
    apply (filter1 q (fun n => u (S n) - q * u n)); [exact Sq| |intros n; ring].
    apply (filter1 p (fun n => 0)); [exact Sp| |intros n; rewrite H; ring].
    intros e He. exists O. intros n _. unfold R_dist. rewrite Rminus_eq_0, Rabs_R0. exact He.
  - (* complex roots: a positive definite form shrinks by the factor d *)
    assert (Hd : 0 < d) by nra.
    set (V := fun n => u (S n) * u (S n) - t * (u (S n) * u n) + d * (u n * u n)).
    assert (HV : forall n, V n = d ^ n * V O).
    { induction n as [|n IH]; [unfold V; cbn [pow]; ring|].
      replace (V (S n)) with (d * V n) by (unfold V; rewrite (H n); ring). rewrite IH. cbn [pow]. ring. }
    set (c := d - t * t / 4). assert (Hc : 0 < c) by (unfold c; lra).
    assert (HL : forall n, c * (u n * u n) <= V n).
    { intros n. unfold c, V. pose proof (Rle_0_sqr (u (S n) - t / 2 * u n)) as Z. unfold Rsqr in Z. lra. }
    assert (Hp : Rabs d < 1) by (destruct St as (St & _); apply Rabs_def1; lra).
    assert (HVv : vanishes V).
    { apply (vanishes_ext (fun n => V O * d ^ n + 0 * d ^ n)); [intros n; rewrite (HV n); ring|].
      apply vanishes_lin; apply vanishes_pow; exact Hp. }
    intros e He. assert (Q : 0 < c * (e * e)) by (apply Rmult_lt_0_compat; [exact Hc|apply Rmult_lt_0_compat; lra]).
    destruct (HVv _ Q) as [N HN]. exists N. intros n Hn. specialize (HN n Hn).
    unfold R_dist in *. rewrite Rminus_0_r in *. apply Rabs_def2 in HN. specialize (HL n).
    assert (L : u n * u n < e * e) by (apply (Rmult_lt_reg_l c); lra).
    apply Rabs_def1; nra.
Qed.

Lemma rec2_solution t d x y : exists u, rec2 t d u /\ u O = x /\ u 1%nat = y.
Proof.
  set (st := fix st n := match n with O => (x, y) | S n => (snd (st n), t * snd (st n) - d * fst (st n)) end).
  exists (fun n => fst (st n)). split; [intros n; reflexivity|split; reflexivity].
Qed.

Lemma vanishes_rec2 t d : (forall u, rec2 t d u -> vanishes u) -> schur2 t d.
Proof.
  intros H. destruct (Rle_dec 0 (t * t - 4 * d)) as [D|D].
  - destruct (real_roots t d D) as (p & q & -> & ->). apply schur2_roots.
    split; apply vanishes_pow; apply H; intros n; cbn [pow]; ring.
  - assert (Hd : 0 < d) by nra.
    destruct (rec2_solution t d 0 1) as (u & Hu & u0 & u1). pose proof (H u Hu) as Z.
    assert (HV : forall n, d ^ n = u (S n) * u (S n) - t * (u (S n) * u n) + d * (u n * u n)).
    { induction n as [|n IH]; [rewrite u0, u1; cbn [pow]; ring|].
      cbn [pow]. rewrite IH, (Hu n). ring. }
    assert (L : Rabs d < 1).
    { apply vanishes_pow.
      pose proof (vanishes_shift _ Z) as Z1.
      pose proof (vanishes_mult _ _ Z1 Z1) as A. pose proof (vanishes_mult _ _ Z1 Z) as B. pose proof (vanishes_mult _ _ Z Z) as C.
      pose proof (vanishes_lin 1 _ 1 _ (vanishes_lin 1 _ (- t) _ A B) (vanishes_lin d _ 0 _ C C)) as W.
      refine (vanishes_ext _ _ _ W). intros n. rewrite (HV n). ring. }
    apply Rabs_def2 in L. unfold schur2.
    assert (t * t < (1 + d) * (1 + d)) by nra.
    repeat split; nra.
Qed.

(** ** Third order *)
Definition jury3 (a b c : R) : Prop :=
  0 < 1 + a + b + c /\ 0 < 1 - a + b - c /\ -1 < c < 1 /\ 0 < 1 - c * c - (b - c * a).

Lemma cubic_root a b c : exists r, r ^ 3 + a * r ^ 2 + b * r + c = 0.
Proof.
  set (M := 1 + Rabs a + Rabs b + Rabs c).
  set (f := fun x : R => ((x + a) * x + b) * x + c).
  assert (HM : 1 <= M) by (unfold M; pose proof (Rabs_pos a); pose proof (Rabs_pos b); pose proof (Rabs_pos c); lra).
  pose proof (Rle_abs a) as A1. pose proof (Rle_abs b) as B1. pose proof (Rle_abs c) as C1.
  pose proof (Rle_abs (- a)) as A2. pose proof (Rle_abs (- b)) as B2. pose proof (Rle_abs (- c)) as C2.
  rewrite Rabs_Ropp in A2, B2, C2.
  assert (SM : M * (M * M) = (1 + Rabs a + Rabs b + Rabs c) * (M * M)) by (unfold M at 1; ring).
  assert (MM : 1 <= M * M) by nra. assert (M2 : M <= M * M) by nra.
  pose proof (Rabs_pos a) as PA. pose proof (Rabs_pos b) as PB. pose proof (Rabs_pos c) as PC.
  assert (b1 : - (Rabs b * (M * M)) <= b * M <= Rabs b * (M * M)).
  { assert (Rabs b * M <= Rabs b * (M * M)) by (apply Rmult_le_compat_l; lra).
    assert (b * M <= Rabs b * M) by (apply Rmult_le_compat_r; lra).
    assert (- b * M <= Rabs b * M) by (apply Rmult_le_compat_r; lra). lra. }
  assert (c1 : - (Rabs c * (M * M)) <= c <= Rabs c * (M * M)).
  { assert (Rabs c * 1 <= Rabs c * (M * M)) by (apply Rmult_le_compat_l; lra). lra. }
  assert (a1 : - (Rabs a * (M * M)) <= a * (M * M) <= Rabs a * (M * M)).
  { assert (a * (M * M) <= Rabs a * (M * M)) by (apply Rmult_le_compat_r; lra).
    assert (- a * (M * M) <= Rabs a * (M * M)) by (apply Rmult_le_compat_r; lra). lra. }
  destruct (IVT f (- M) M) as (r & _ & Hr).
  - unfold f. reg.
  - lra.
  - unfold f. replace (((- M + a) * - M + b) * - M + c) with (- (M * (M * M)) + a * (M * M) - b * M + c) by ring.
    rewrite SM. lra.
  - unfold f. replace (((M + a) * M + b) * M + c) with (M * (M * M) + a * (M * M) + b * M + c) by ring.
    rewrite SM. lra.
  - exists r. unfold f in Hr. rewrite <- Hr. ring.
Qed.

Lemma jury3_factor r t d :
  jury3 (- (t + r)) (d + r * t) (- (r * d)) <-> Rabs r < 1 /\ schur2 t d.
Proof.
  unfold jury3, schur2. split.
  - intros (A & B & C & D).
    assert (A' : 0 < (1 - r) * (1 - t + d)) by lra.
    assert (B' : 0 < (1 + r) * (1 + t + d)) by lra.
    assert (D' : 0 < (1 - d) * (1 - r * t + r * r * d)) by lra.
    clear A B D.
    assert (R1 : r < 1).
    { destruct (Rlt_dec r 1) as [L|L]; [exact L|exfalso].
      assert (G : 1 < r) by (destruct (Req_dec r 1) as [->|]; lra).
      assert (T : 1 - t + d < 0) by nra.
      assert (d < 1) by nra.
      assert (P : 0 < 1 - r * t + r * r * d) by nra.
      assert (1 - r * t + r * r * d < (1 - r) * (1 - r * d)) by nra.
      assert ((1 - r) * (1 - r * d) < 0) by nra. lra. }
    assert (R2 : -1 < r).
    { destruct (Rlt_dec (-1) r) as [L|L]; [exact L|exfalso].
      assert (G : r < -1) by (destruct (Req_dec r (-1)) as [->|]; lra).
      assert (T : 1 + t + d < 0) by nra.
      assert (d < 1) by nra.
      assert (P : 0 < 1 - r * t + r * r * d) by nra.
      assert (1 - r * t + r * r * d < (1 + r) * (1 + r * d)) by nra.
      assert ((1 + r) * (1 + r * d) < 0) by nra. lra. }
    assert (T1 : 0 < 1 - t + d) by nra. assert (T2 : 0 < 1 + t + d) by nra.
    split; [apply Rabs_def1; lra|]. split; [|split; assumption].
    destruct (Rlt_dec d 1) as [L|L]; [exact L|exfalso].
    assert (G : 1 < d) by (destruct (Req_dec d 1) as [->|]; lra).
    assert (P : 1 - r * t + r * r * d < 0) by nra.
    destruct (Rle_dec 0 r) as [Z|Z].
    + assert ((1 - r) * (1 - r * d) <= 1 - r * t + r * r * d) by nra.
      assert (0 < (1 - r) * (1 - r * d)) by (apply Rmult_lt_0_compat; lra). lra.
    + assert ((1 + r) * (1 + r * d) <= 1 - r * t + r * r * d) by nra.
      assert (0 < (1 + r) * (1 + r * d)) by (apply Rmult_lt_0_compat; lra). lra.
  - intros (A & D & T1 & T2). apply Rabs_def2 in A.
    assert (Dn : -1 < d) by lra.
    assert (rd : -1 < r * d < 1) by (split; nra).
    split; [|split; [|split]].
    + replace (1 + - (t + r) + (d + r * t) + - (r * d)) with ((1 - r) * (1 - t + d)) by ring. apply Rmult_lt_0_compat; lra.
    + replace (1 - - (t + r) + (d + r * t) - - (r * d)) with ((1 + r) * (1 + t + d)) by ring. apply Rmult_lt_0_compat; lra.
    + lra.
    + replace (1 - - (r * d) * - (r * d) - (d + r * t - - (r * d) * - (t + r))) with ((1 - d) * (1 - r * t + r * r * d)) by ring.
      apply Rmult_lt_0_compat; [lra|].
      destruct (Rle_dec 0 r) as [Z|Z].
      * assert ((1 - r) * (1 - r * d) <= 1 - r * t + r * r * d) by nra.
        assert (0 < (1 - r) * (1 - r * d)) by (apply Rmult_lt_0_compat; lra). lra.
      * assert ((1 + r) * (1 + r * d) <= 1 - r * t + r * r * d) by nra.
        assert (0 < (1 + r) * (1 + r * d)) by (apply Rmult_lt_0_compat; lra). lra.
Qed.

Lemma rec3_stable a b c : (forall u, rec3 a b c u -> vanishes u) <-> jury3 a b c.
Proof.
  destruct (cubic_root a b c) as [r Hr].
  set (t := - a - r). set (d := b - r * t).
  assert (Ea : a = - (t + r)) by (unfold t; ring).
  assert (Eb : b = d + r * t) by (unfold d; ring).
  assert (Ec : c = - (r * d)) by (unfold d, t; rewrite <- (Rplus_0_l c), <- Hr; ring_simplify; lra).
  clearbody d. clearbody t. subst a b c. rewrite jury3_factor. split.
  - intros H. split.
    + apply vanishes_pow. apply H. intros n. cbn [pow]. ring.
    + apply vanishes_rec2. intros u Hu. apply H. intros n. rewrite (Hu (S n)), (Hu n). ring.
  - intros [Sr Sq] u Hu.
    apply (filter1 r (fun n => u (S n) - r * u n)); [exact Sr| |intros n; ring].
    apply (rec2_vanishes t d); [exact Sq|]. intros n. specialize (Hu n). lra.
Qed.

Lemma rec2_stable t d : (forall u, rec2 t d u -> vanishes u) <-> schur2 t d.
Proof. split; [apply vanishes_rec2|intros S u; apply rec2_vanishes; exact S]. Qed.

Lemma rec3_solution a b c x y z : exists u, rec3 a b c u /\ u O = x /\ u 1%nat = y /\ u 2%nat = z.
Proof.
  set (st := fix st n := match n with O => (x, y, z) | S n =>
    let '(x, y, z) := st n in (y, z, - a * z - b * y - c * x) end).
  exists (fun n => fst (fst (st n))). split; [|repeat split; reflexivity].
  intros n. cbn [st]. destruct (st n) as [[p q] w]. cbn. ring.
Qed.
