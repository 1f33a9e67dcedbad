(** * LeastSquaresFilter: C37, C55. *)
From Coq Require Import List Reals Lra Lia Psatz Arith Bool.
From Verif Require Import Ops RealOps Model_GH Model_LSQ Spec_GH Proof_GH.
Import ListNotations.
Open Scope R_scope.

Definition lsq_run (zs : list R) (s : lsq RS) : lsq RS :=
  fold_left (fun s z => lsq_update (o:=RS) z s) zs s.

Lemma lsq_run_snoc zs z s : lsq_run (zs ++ [z]) s = lsq_update (o:=RS) z (lsq_run zs s).
Proof. unfold lsq_run. rewrite fold_left_app. reflexivity. Qed.

Lemma normal_eq order dt a b c a' b' c' zs : normal order (poly dt a' b' c') zs ->
  a = a' -> b = b' -> c = c' -> normal order (poly dt a b c) zs.
Proof. intros H -> -> ->. exact H. Qed.

Lemma lsq_run_inv dt order sigma zs s0 : lsq_init (o:=RS) dt false order sigma = Ok s0 -> dt <> 0 ->
  let s := lsq_run zs s0 in
  (order <= 2)%nat /\ l_dt s = dt /\ l_sigma s = sigma /\ l_order s = order /\ l_n s = length zs /\ l_y s = 0 /\
  degree_le order (l_x1 s) (l_x2 s) /\ normal order (poly dt (l_x0 s) (l_x1 s) (l_x2 s)) (rev zs).
Proof.
  unfold lsq_init. cbn [orb]. destruct (2 <? order)%nat eqn:Ho; [discriminate|]. apply Nat.ltb_ge in Ho.
  intros [= <-] Hdt. cbn zeta. induction zs as [|z zs IH] using rev_ind.
  - cbn. repeat split; auto; intros; unfold mom; cbn; lra.
  - rewrite lsq_run_snoc, rev_app_distr. cbn [rev app].
    destruct IH as (_ & Hd & Hs & Hord & Hn & Hy & Hdeg & Hnorm).
    set (s := lsq_run zs _) in *. clearbody s.
    pose proof (normal_step order dt (l_x0 s) (l_x1 s) (l_x2 s)) as St.
    assert (HN : 0 <= INR (length zs)) by apply pos_INR.
    destruct Hdeg as [d1 d2].
    rewrite app_length. cbn [length].
    replace (length zs + 1)%nat with (S (length zs)) by lia.
    destruct order as [|[|[|order]]]; [| | |lia].
    + specialize (d1 ltac:(lia)). specialize (d2 ltac:(lia)).
      unfold lsq_update. rewrite Hord. cbn [l_dt l_sigma l_order l_n l_y l_x0 l_x1 l_x2]. rewrite Hn.
      split; [lia|]. do 6 (split; [auto; try (split; intros; auto; lia)|]).
      assert (HS : 0 < INR (S (length zs))) by (rewrite S_INR; lra).
      pose proof (St (1 / INR (S (length zs))) 0 0 z (rev zs) Hdt) as St'. rewrite rev_length in St'.
      specialize (St' ltac:(lia) ltac:(auto) ltac:(discriminate) ltac:(discriminate) Hnorm). cbn zeta in St'.
      rewrite d1, d2 in *. rs.
      apply (normal_eq _ _ _ _ _ _ _ _ _ St'); field; repeat split; auto; lra.
    + specialize (d2 ltac:(lia)).
      unfold lsq_update. rewrite Hord. cbn [l_dt l_sigma l_order l_n l_y l_x0 l_x1 l_x2]. rewrite Hn, Hd.
      split; [lia|]. do 6 (split; [auto; try (split; intros; auto; lia)|]).
      pose proof (St (2 * (2 * INR (S (length zs)) - 1) / (INR (S (length zs)) * (INR (S (length zs)) + 1)))
        (6 / (INR (S (length zs)) * (INR (S (length zs)) + 1))) 0 z (rev zs) Hdt) as St'. rewrite rev_length in St'.
      specialize (St' ltac:(lia) ltac:(discriminate) ltac:(auto) ltac:(discriminate) Hnorm). cbn zeta in St'.
      rewrite d2 in *. rs.
      assert (S (length zs) <> 0)%nat by lia. assert (HS : 0 < INR (S (length zs))) by (rewrite S_INR; lra).
      apply (normal_eq _ _ _ _ _ _ _ _ _ St'); field; repeat split; auto; lra.
    + unfold lsq_update. rewrite Hord. cbn [l_dt l_sigma l_order l_n l_y l_x0 l_x1 l_x2]. rewrite Hn, Hd.
      split; [lia|]. do 6 (split; [auto; try (split; intros; auto; lia)|]).
      set (N := INR (S (length zs))) in *.
      pose proof (St (3 * (3 * N ^ 2 - 3 * N + 2) / (N * (N + 1) * (N + 2)))
        (18 * (2 * N - 1) / (N * (N + 1) * (N + 2))) (60 / (N * (N + 1) * (N + 2))) z (rev zs) Hdt) as St'. rewrite rev_length in St'.
      specialize (St' ltac:(lia) ltac:(discriminate) ltac:(discriminate) ltac:(auto) Hnorm). cbn zeta in St'.
      rewrite half_R. rs. fold N.
      assert (HS : 0 < N) by (unfold N; rewrite S_INR; lra).
      apply (normal_eq _ _ _ _ _ _ _ _ _ St'); field; repeat split; auto; lra.
Qed.

(** ** C37.  After any measurements the state (value, derivatives now) is a
    polynomial of degree at most the order minimising the sum of squared
    residuals; it is the only one once there are more measurements than the order;
    reset restores the filter as constructed. *)
Theorem C37_least_squares : forall (dt : R) (neg : bool) (order : nat) (sigma : R) (s0 : lsq RS) (zs : list R),
  lsq_init (o:=RS) dt neg order sigma = Ok s0 -> dt <> 0 ->
  let s := lsq_run zs s0 in
  best_poly order dt zs (l_x0 s) (l_x1 s) (l_x2 s) /\
  ((order < length zs)%nat -> only_best_poly order dt zs (l_x0 s) (l_x1 s) (l_x2 s)) /\
  l_n s = length zs /\ lsq_reset s = s0.
Proof.
  intros dt neg order sigma s0 zs Hi Hdt s.
  assert (Hn : neg = false) by (destruct neg; [discriminate Hi|reflexivity]). subst neg.
  destruct (lsq_run_inv dt order sigma zs s0 Hi Hdt) as (Ho & Hd & Hs & Hord & Hn & Hy & Hdeg & Hnorm).
  fold s in Hd, Hs, Hord, Hn, Hy, Hdeg, Hnorm.
  split; [apply normal_best; assumption|]. split; [intros; apply normal_unique; assumption|].
  split; [exact Hn|]. unfold lsq_reset.
  rewrite Hd, Hs, Hord. unfold lsq_init in Hi. destruct (false || (2 <? order)%nat); [discriminate|].
  injection Hi as <-. reflexivity.
Qed.
Print Assumptions C37_least_squares.

(** The constructor accepts exactly the orders 0, 1 and 2. *)
Theorem C37_orders : forall (dt : R) (neg : bool) (order : nat) (sigma : R),
  (exists s, lsq_init (o:=RS) dt neg order sigma = Ok s) <-> neg = false /\ (order <= 2)%nat.
Proof.
  intros. unfold lsq_init. destruct neg; cbn [orb].
  - split; [intros [s [=]]|intros [[=] _]].
  - destruct (2 <? order)%nat eqn:E; [apply Nat.ltb_lt in E|apply Nat.ltb_ge in E].
    + split; [intros [s [=]]|lia].
    + split; eauto.
Qed.
Print Assumptions C37_orders.

Example C37_example : exists s, lsq_init (o:=RS) (1/2) false 2 1 = Ok s /\ (2 < length [1; 2; 0; 4])%nat.
Proof. eexists. split; [reflexivity|cbn; lia]. Qed.

(** ** C55 *)
(** Measurements of the polynomial, with the given errors, chronologically. *)
Fixpoint poly_meas (dt c0 c1 c2 : R) (ns : list R) : list R :=
  match ns with
  | [] => []
  | n :: ns => (poly dt c0 c1 c2 (length ns) + n) :: poly_meas dt c0 c1 c2 ns
  end.
(** Error sequences of length n with variance s2, uncorrelated. *)
Definition white (e : list (R * list R)) (n : nat) (s2 : R) : Prop :=
  Forall (fun wa => length (snd wa) = n) e /\
  forall i j, (i < n)%nat -> (j < n)%nat ->
    ex e (fun l => nth i l 0 * nth j l 0) = if (i =? j)%nat then s2 else 0.

(** Linear functionals of the error sequence, latest first. *)
Fixpoint lin (w : nat -> R) (n : nat) (l : list R) : R :=
  match n with
  | O => 0
  | S n => lin w n l + w n * nth n l 0
  end.
Fixpoint wsum (f : nat -> R) (n : nat) : R :=
  match n with O => 0 | S n => wsum f n + f n end.

Lemma lin_cons w n x l : lin w (S n) (x :: l) = w 0%nat * x + lin (fun a => w (S a)) n l.
Proof. induction n as [|n IH]; cbn [lin nth] in *; [ring|]. rewrite IH. ring. Qed.

Lemma asum_lin w l : asum (fun a z => w a * z) 0 l = lin w (length l) l.
Proof.
  revert w. induction l as [|x l IH]; intros w; [reflexivity|].
  cbn [length]. rewrite lin_cons. cbn [asum]. rewrite asum_shift, IH. reflexivity.
Qed.
Lemma asum_wsum (f : nat -> R) l : asum (fun a _ => f a) 0 l = wsum f (length l).
Proof.
  revert f. induction l as [|x l IH]; intros f; [reflexivity|].
  cbn [asum length]. rewrite asum_shift, IH. cbn [wsum].
  clear. induction (length l) as [|n IHn]; cbn [wsum] in *; [ring|]. rewrite <- IHn. ring.
Qed.

Lemma lin_white e (N : nat) s2 : (forall i j, (i < N)%nat -> (j < N)%nat ->
    ex e (fun l => nth i l 0 * nth j l 0) = if (i =? j)%nat then s2 else 0) ->
  forall w v n, (n <= N)%nat -> ex e (fun l => lin w n l * lin v n l) = s2 * wsum (fun a => w a * v a) n.
Proof.
  intros H w v n. induction n as [|n IH]; intros Hn; cbn [lin wsum].
  - rewrite (ex_scal _ e 0 (fun _ => 0)). ring.
  - assert (C : forall u m, (m <= n)%nat -> ex e (fun l => nth n l 0 * lin u m l) = 0).
    { intros u m. induction m as [|m IHm]; intros Hm; cbn [lin].
      - clear. induction e as [|a e IHe]; cbn; [reflexivity|]. unfold ex in IHe. rewrite IHe. ring.
      - transitivity (ex e (fun l => nth n l 0 * lin u m l + u m * (nth n l 0 * nth m l 0))).
        + apply ex_ext, Forall_forall. intros; ring.
        + rewrite ex_plus, ex_scal, IHm, H by lia.
          replace (n =? m)%nat with false by (symmetry; apply Nat.eqb_neq; lia). ring. }
    transitivity (ex e (fun l => lin w n l * lin v n l + v n * (nth n l 0 * lin w n l) + w n * (nth n l 0 * lin v n l)
       + w n * v n * (nth n l 0 * nth n l 0))).
    + apply ex_ext, Forall_forall. intros; ring.
    + rewrite !ex_plus, !ex_scal, IH, !C, H by lia. rewrite Nat.eqb_refl. ring.
Qed.

Lemma white_rev e n s2 : white e n s2 -> forall w v,
  ex e (fun l => asum (fun a z => w a * z) 0 (rev l) * asum (fun a z => v a * z) 0 (rev l)) =
  s2 * wsum (fun a => w a * v a) n.
Proof.
  intros [Hl H] w v.
  transitivity (ex (emap (@rev R) e) (fun l => lin w n l * lin v n l)).
  - rewrite ex_emap. apply ex_ext. eapply Forall_impl; [|exact Hl]. intros [x l] E. cbn [snd] in *.
    rewrite !asum_lin, rev_length, E. reflexivity.
  - apply (lin_white _ n); [|lia]. intros i j Hi Hj. rewrite ex_emap.
    transitivity (ex e (fun l => nth (n - S i) l 0 * nth (n - S j) l 0)).
    + apply ex_ext. eapply Forall_impl; [|exact Hl]. intros [x l] E. cbn [snd] in *.
      rewrite !rev_nth, E by lia. reflexivity.
    + rewrite H by lia.
      destruct (i =? j)%nat eqn:E1; [apply Nat.eqb_eq in E1; subst; rewrite Nat.eqb_refl; reflexivity|].
      apply Nat.eqb_neq in E1. replace (n - S i =? n - S j)%nat with false; [reflexivity|].
      symmetry; apply Nat.eqb_neq; lia.
Qed.

Lemma poly_meas_length dt c0 c1 c2 ns : length (poly_meas dt c0 c1 c2 ns) = length ns.
Proof. induction ns; cbn; congruence. Qed.

Lemma asum_poly_meas f dt c0 c1 c2 ns :
  asum f 0 (rev (poly_meas dt c0 c1 c2 ns)) = asum (fun a n => f a (poly dt c0 c1 c2 a + n)) 0 (rev ns).
Proof.
  induction ns as [|n ns IH]; [reflexivity|]. cbn [poly_meas rev].
  rewrite !asum_app, IH, !rev_length, poly_meas_length. reflexivity.
Qed.

(** The weights of the least-squares estimate, latest datum first. *)
Section Weights.
Variables (order : nat) (n : nat).
Let N := INR n.
Let S0 := N.
Let S1 := N * (N - 1) / 2.
Let S2 := N * (N - 1) * (2 * N - 1) / 6.
Let S3 := N ^ 2 * (N - 1) ^ 2 / 4.
Let S4 := N * (N - 1) * (2 * N - 1) * (3 * N ^ 2 - 3 * N - 1) / 30.
Definition wt (i : nat) (a : nat) : R :=
  let x := INR a in
  match order, i with
  | 0%nat, 0%nat => 1 / N
  | 1%nat, 0%nat => (S2 - S1 * x) / (N ^ 2 * (N ^ 2 - 1) / 12)
  | 1%nat, 1%nat => (S1 - S0 * x) / (N ^ 2 * (N ^ 2 - 1) / 12)
  | 2%nat, 0%nat => ((S2 * S4 - S3 ^ 2) - (S1 * S4 - S2 * S3) * x + (S1 * S3 - S2 ^ 2) * x ^ 2) /
      (N ^ 3 * (N ^ 2 - 1) ^ 2 * (N ^ 2 - 4) / 2160)
  | 2%nat, 1%nat => ((S1 * S4 - S2 * S3) - (S0 * S4 - S2 ^ 2) * x + (S0 * S3 - S1 * S2) * x ^ 2) /
      (N ^ 3 * (N ^ 2 - 1) ^ 2 * (N ^ 2 - 4) / 2160)
  | 2%nat, 2%nat => ((S1 * S3 - S2 ^ 2) - (S0 * S3 - S1 * S2) * x + (S0 * S2 - S1 ^ 2) * x ^ 2) /
      (N ^ 3 * (N ^ 2 - 1) ^ 2 * (N ^ 2 - 4) / 2160)
  | _, _ => 0
  end.
End Weights.

Definition est (order i : nat) (ns : list R) : R := asum (fun a z => wt order (length ns) i a * z) 0 (rev ns).

Lemma big_N (n : nat) : (1 < n)%nat -> INR n <> 0 /\ INR n ^ 2 - 1 <> 0.
Proof.
  intros H. apply le_INR in H. change (INR 2) with 2 in H. split; nra.
Qed.
Lemma bigger_N (n : nat) : (2 < n)%nat -> INR n <> 0 /\ INR n ^ 2 - 1 <> 0 /\ INR n ^ 2 - 4 <> 0.
Proof.
  intros H. apply le_INR in H. replace (INR 3) with 3 in H by (cbn; lra). repeat split; nra.
Qed.

Lemma mom_expand p dt c0 c1 c2 zs : 
  mom p (poly dt c0 c1 c2) zs = asum (fun a z => INR a ^ p * z) 0 zs
    - (c0 * psum p zs - c1 * dt * psum (S p) zs + c2 * dt ^ 2 / 2 * psum (S (S p)) zs).
Proof.
  unfold mom, psum.
  replace (c0 * asum (fun a _ => INR a ^ p) 0 zs - c1 * dt * asum (fun a _ => INR a ^ S p) 0 zs
    + c2 * dt ^ 2 / 2 * asum (fun a _ => INR a ^ S (S p)) 0 zs) with
    (asum (fun a _ => INR a ^ p * poly dt c0 c1 c2 a) 0 zs).
  - rewrite (asum_ext _ (fun a z => INR a ^ p * z + (-1) * (INR a ^ p * poly dt c0 c1 c2 a))) by (intros; ring).
    rewrite asum_plus, asum_scal. ring.
  - replace (c0 * asum (fun a _ => INR a ^ p) 0 zs - c1 * dt * asum (fun a _ => INR a ^ S p) 0 zs)
      with (c0 * asum (fun a _ => INR a ^ p) 0 zs + (- (c1 * dt)) * asum (fun a _ => INR a ^ S p) 0 zs) by ring.
    rewrite <- !asum_scal, <- !asum_plus. apply asum_ext; intros; unfold poly; cbn [pow]; field.
Qed.

Lemma est_normal order dt zs : (order <= 2)%nat -> (order < length zs)%nat -> dt <> 0 ->
  normal order (poly dt (est order 0 zs) (est order 1 zs / dt) (2 * est order 2 zs / dt ^ 2)) (rev zs).
Proof.
  intros Ho Hl Hdt. unfold normal. rewrite !mom_expand.
  destruct (psum_closed (rev zs)) as (p0 & p1 & p2 & p3 & p4). rewrite rev_length in *.
  rewrite p0, p1, p2, p3, p4.
  set (T := fun p => asum (fun a z => INR a ^ p * z) 0 (rev zs)).
  assert (lin3 : forall k0 k1 k2, asum (fun a z => (k0 + k1 * INR a + k2 * INR a ^ 2) * z) 0 (rev zs)
     = k0 * T 0%nat + k1 * T 1%nat + k2 * T 2%nat).
  { intros. unfold T. rewrite <- !asum_scal, <- !asum_plus. apply asum_ext; intros; ring. }
  change (asum (fun a z => INR a ^ 0 * z) 0 (rev zs)) with (T 0%nat).
  change (asum (fun a z => INR a ^ 1 * z) 0 (rev zs)) with (T 1%nat).
  change (asum (fun a z => INR a ^ 2 * z) 0 (rev zs)) with (T 2%nat).
  assert (A : forall i k0 k1 k2, (forall a, wt order (length zs) i a = k0 + k1 * INR a + k2 * INR a ^ 2) ->
     est order i zs = k0 * T 0%nat + k1 * T 1%nat + k2 * T 2%nat).
  { intros i k0 k1 k2 H. unfold est. rewrite <- lin3. apply asum_ext; intros. rewrite H. reflexivity. }
  set (N := INR (length zs)) in *.
  destruct order as [|[|[|order]]]; [| | |lia].
  - assert (HN : N <> 0) by (apply not_0_INR; lia).
    rewrite (A 0%nat (1/N) 0 0) by (intros; unfold wt; fold N; ring).
    rewrite (A 1%nat 0 0 0) by (intros; unfold wt; ring). rewrite (A 2%nat 0 0 0) by (intros; unfold wt; ring).
    repeat split; try (intros; lia). field. auto.
  - destruct (big_N (length zs) Hl) as [HN HN1]. fold N in HN, HN1.
    rewrite (A 0%nat (N * (N - 1) * (2 * N - 1) / 6 / (N ^ 2 * (N ^ 2 - 1) / 12)) (- (N * (N - 1) / 2 / (N ^ 2 * (N ^ 2 - 1) / 12))) 0)
      by (intros; unfold wt; fold N; field; auto).
    rewrite (A 1%nat (N * (N - 1) / 2 / (N ^ 2 * (N ^ 2 - 1) / 12)) (- (N / (N ^ 2 * (N ^ 2 - 1) / 12))) 0)
      by (intros; unfold wt; fold N; field; auto).
    rewrite (A 2%nat 0 0 0) by (intros; unfold wt; ring).
    repeat split; try (intros; lia); intros; field; auto.
  - destruct (bigger_N (length zs) Hl) as (HN & HN1 & HN2). fold N in HN, HN1, HN2.
    set (S0 := N). set (S1 := N * (N - 1) / 2). set (S2 := N * (N - 1) * (2 * N - 1) / 6).
    set (S3 := N ^ 2 * (N - 1) ^ 2 / 4). set (S4 := N * (N - 1) * (2 * N - 1) * (3 * N ^ 2 - 3 * N - 1) / 30).
    set (D := N ^ 3 * (N ^ 2 - 1) ^ 2 * (N ^ 2 - 4) / 2160).
    assert (HD : D <> 0).
    { unfold D, Rdiv. repeat apply prod_neq_R0; try apply pow_nonzero; auto. lra. }
    rewrite (A 0%nat ((S2 * S4 - S3 ^ 2) / D) (- ((S1 * S4 - S2 * S3) / D)) ((S1 * S3 - S2 ^ 2) / D))
      by (intros; unfold wt, S0, S1, S2, S3, S4, D; fold N; field; auto).
    rewrite (A 1%nat ((S1 * S4 - S2 * S3) / D) (- ((S0 * S4 - S2 ^ 2) / D)) ((S0 * S3 - S1 * S2) / D))
      by (intros; unfold wt, S0, S1, S2, S3, S4, D; fold N; field; auto).
    rewrite (A 2%nat ((S1 * S3 - S2 ^ 2) / D) (- ((S0 * S3 - S1 * S2) / D)) ((S0 * S2 - S1 ^ 2) / D))
      by (intros; unfold wt, S0, S1, S2, S3, S4, D; fold N; field; auto).
    clearbody T. unfold S0, S1, S2, S3, S4, D.
    repeat split; intros; field; auto.
Qed.

(** The filter computes these estimates, and they reproduce polynomials. *)
Lemma lsq_run_est dt order sigma zs s0 : lsq_init (o:=RS) dt false order sigma = Ok s0 -> dt <> 0 ->
  (order < length zs)%nat ->
  let s := lsq_run zs s0 in
  l_x0 s = est order 0 zs /\ l_x1 s = est order 1 zs / dt /\ l_x2 s = 2 * est order 2 zs / dt ^ 2.
Proof.
  intros Hi Hdt Hl s.
  destruct (lsq_run_inv dt order sigma zs s0 Hi Hdt) as (Ho & _ & _ & _ & _ & _ & Hdeg & Hnorm).
  fold s in Hdeg, Hnorm.
  assert (Hd : degree_le order (est order 1 zs / dt) (2 * est order 2 zs / dt ^ 2)).
  { split; intros H.
    - destruct order; [|lia]. unfold est, wt. rewrite (asum_scal 0 (fun _ z => z)). field. exact Hdt.
    - destruct order as [|[|]]; [| |lia]; unfold est, wt; rewrite (asum_scal 0 (fun _ z => z)); field; exact Hdt. }
  pose proof (normal_best _ _ _ _ _ _ Hd (est_normal order dt zs Ho Hl Hdt)) as B.
  destruct (normal_unique order dt _ _ _ zs Ho Hdt Hl Hdeg Hnorm _ _ _ B) as (e0 & e1 & e2).
  repeat split; congruence.
Qed.

Lemma est_linear order i (us vs : nat -> R -> R) ns :
  asum (fun a n => wt order (length ns) i a * (us a n + vs a n)) 0 (rev ns) =
  asum (fun a n => wt order (length ns) i a * us a n) 0 (rev ns) +
  asum (fun a n => wt order (length ns) i a * vs a n) 0 (rev ns).
Proof. rewrite <- asum_plus. apply asum_ext; intros; ring. Qed.

Lemma asum_map0 (w q : nat -> R) k l :
  asum (fun a z => w a * (q a + z)) k (map (fun _ => 0) l) = asum (fun a _ => w a * q a) k l.
Proof. revert k. induction l as [|x l IH]; intros k; [reflexivity|]. cbn [asum map]. rewrite IH. ring. Qed.

(** Error of the estimate = the same estimate applied to the measurement errors. *)
Lemma lsq_error dt order sigma s0 c0 c1 c2 ns : lsq_init (o:=RS) dt false order sigma = Ok s0 -> dt <> 0 ->
  (order < length ns)%nat -> degree_le order c1 c2 ->
  let s := lsq_run (poly_meas dt c0 c1 c2 ns) s0 in
  l_x0 s - c0 = est order 0 ns /\ l_x1 s - c1 = est order 1 ns / dt /\ l_x2 s - c2 = 2 * est order 2 ns / dt ^ 2.
Proof.
  intros Hi Hdt Hl Hdeg s.
  destruct (lsq_run_inv dt order sigma [] s0 Hi Hdt) as (Ho & _).
  assert (Hl' : (order < length (poly_meas dt c0 c1 c2 ns))%nat) by (rewrite poly_meas_length; exact Hl).
  destruct (lsq_run_est dt order sigma _ s0 Hi Hdt Hl') as (e0 & e1 & e2). fold s in e0, e1, e2.
  assert (E : forall i, est order i (poly_meas dt c0 c1 c2 ns) =
     est order i (poly_meas dt c0 c1 c2 (map (fun _ => 0) ns)) + est order i ns).
  { intros i. unfold est. rewrite !asum_poly_meas, !poly_meas_length, map_length, est_linear. f_equal.
    rewrite <- map_rev, asum_map0. reflexivity. }
  (* without errors the polynomial itself is the estimate *)
  set (zs := poly_meas dt c0 c1 c2 (map (fun _ => 0) ns)) in *.
  assert (Hlz : length zs = length ns) by (unfold zs; rewrite poly_meas_length, map_length; reflexivity).
  assert (M : forall p, mom p (poly dt c0 c1 c2) (rev zs) = 0).
  { intros p. unfold mom, zs. rewrite asum_poly_meas, <- map_rev. generalize (rev ns). generalize 0%nat. intros k l. revert k.
    induction l as [|x l IH]; intros k; [reflexivity|]. cbn [asum map]. rewrite IH. ring. }
  assert (B : best_poly order dt zs c0 c1 c2) by (apply normal_best; [exact Hdeg|repeat split; auto]).
  assert (Hlz' : (order < length zs)%nat) by (rewrite Hlz; exact Hl).
  destruct (lsq_run_est dt order sigma zs s0 Hi Hdt Hlz') as (f0 & f1 & f2).
  destruct (lsq_run_inv dt order sigma zs s0 Hi Hdt) as (_ & _ & _ & _ & _ & _ & Hd2 & Hn2).
  destruct (normal_unique order dt _ _ _ zs Ho Hdt Hlz' Hd2 Hn2 _ _ _ B) as (g0 & g1 & g2).
  rewrite e0, e1, e2, !E, g0, g1, g2, f0, f1, f2. repeat split; field; exact Hdt.
Qed.

Lemma wsum_ext (f g : nat -> R) n : (forall a, f a = g a) -> wsum f n = wsum g n.
Proof. intros H. induction n; cbn; [reflexivity|]. rewrite IHn, H. reflexivity. Qed.
Lemma wsum_quad k0 k1 k2 n : let N := INR n in
  wsum (fun a => (k0 + k1 * INR a + k2 * INR a ^ 2) * (k0 + k1 * INR a + k2 * INR a ^ 2)) n =
  k0 ^ 2 * N + 2 * k0 * k1 * (N * (N - 1) / 2) + (k1 ^ 2 + 2 * k0 * k2) * (N * (N - 1) * (2 * N - 1) / 6) +
  2 * k1 * k2 * (N ^ 2 * (N - 1) ^ 2 / 4) + k2 ^ 2 * (N * (N - 1) * (2 * N - 1) * (3 * N ^ 2 - 3 * N - 1) / 30).
Proof.
  induction n as [|n IH]; cbn zeta in *; cbn [wsum]; [cbn [INR]; field|]. rewrite IH, S_INR. field.
Qed.

Lemma wsum_wt order i n : (order <= 2)%nat -> (order < n)%nat ->
  let N := INR n in
  wsum (fun a => wt order n i a * wt order n i a) n =
  match order, i with
  | 0%nat, 0%nat => 1 / N
  | 1%nat, 0%nat => 2 * (2 * N - 1) / (N * (N + 1))
  | 1%nat, 1%nat => 12 / (N * (N ^ 2 - 1))
  | 2%nat, 0%nat => 3 * (3 * N ^ 2 - 3 * N + 2) / (N * (N + 1) * (N + 2))
  | 2%nat, 1%nat => 12 * (16 * N ^ 2 - 30 * N + 11) / (N * (N ^ 2 - 1) * (N ^ 2 - 4))
  | 2%nat, 2%nat => 180 / (N * (N ^ 2 - 1) * (N ^ 2 - 4))
  | _, _ => 0
  end.
Proof.
  intros Ho Hl N.
  assert (A : forall k0 k1 k2, (forall a, wt order n i a = k0 + k1 * INR a + k2 * INR a ^ 2) ->
     wsum (fun a => wt order n i a * wt order n i a) n =
     wsum (fun a => (k0 + k1 * INR a + k2 * INR a ^ 2) * (k0 + k1 * INR a + k2 * INR a ^ 2)) n).
  { intros k0 k1 k2 H. apply wsum_ext. intros a. rewrite H. reflexivity. }
  assert (HN0 : 1 <= N) by (replace 1 with (INR 1) by reflexivity; apply le_INR; lia).
  destruct order as [|[|[|order]]]; [| | |lia].
  - destruct i as [|i].
    + rewrite (A (1 / N) 0 0) by (intros; unfold wt; fold N; ring). rewrite wsum_quad. fold N. field. lra.
    + rewrite (A 0 0 0) by (intros; unfold wt; ring). rewrite wsum_quad. ring.
  - destruct (big_N n Hl) as [HN HN1]. fold N in HN, HN1.
    destruct i as [|[|i]].
    + rewrite (A (N * (N - 1) * (2 * N - 1) / 6 / (N ^ 2 * (N ^ 2 - 1) / 12)) (- (N * (N - 1) / 2 / (N ^ 2 * (N ^ 2 - 1) / 12))) 0)
      by (intros; unfold wt; fold N; field; auto).
      rewrite wsum_quad. fold N. field. repeat split; auto; lra.
    + rewrite (A (N * (N - 1) / 2 / (N ^ 2 * (N ^ 2 - 1) / 12)) (- (N / (N ^ 2 * (N ^ 2 - 1) / 12))) 0)
      by (intros; unfold wt; fold N; field; auto).
      rewrite wsum_quad. fold N. field. repeat split; auto; lra.
    + rewrite (A 0 0 0) by (intros; unfold wt; ring). rewrite wsum_quad. ring.
  - destruct (bigger_N n Hl) as (HN & HN1 & HN2). fold N in HN, HN1, HN2.
    set (S0 := N). set (S1 := N * (N - 1) / 2). set (S2 := N * (N - 1) * (2 * N - 1) / 6).
    set (S3 := N ^ 2 * (N - 1) ^ 2 / 4). set (S4 := N * (N - 1) * (2 * N - 1) * (3 * N ^ 2 - 3 * N - 1) / 30).
    set (D := N ^ 3 * (N ^ 2 - 1) ^ 2 * (N ^ 2 - 4) / 2160).
    assert (HD : D <> 0).
    { unfold D, Rdiv. repeat apply prod_neq_R0; try apply pow_nonzero; auto. lra. }
    destruct i as [|[|[|i]]].
    + rewrite (A ((S2 * S4 - S3 ^ 2) / D) (- ((S1 * S4 - S2 * S3) / D)) ((S1 * S3 - S2 ^ 2) / D))
        by (intros; unfold wt, S0, S1, S2, S3, S4, D; fold N; field; auto).
      rewrite wsum_quad. fold N. unfold S0, S1, S2, S3, S4, D. field. repeat split; auto; lra.
    + rewrite (A ((S1 * S4 - S2 * S3) / D) (- ((S0 * S4 - S2 ^ 2) / D)) ((S0 * S3 - S1 * S2) / D))
        by (intros; unfold wt, S0, S1, S2, S3, S4, D; fold N; field; auto).
      rewrite wsum_quad. fold N. unfold S0, S1, S2, S3, S4, D. field. repeat split; auto; lra.
    + rewrite (A ((S1 * S3 - S2 ^ 2) / D) (- ((S0 * S3 - S1 * S2) / D)) ((S0 * S2 - S1 ^ 2) / D))
        by (intros; unfold wt, S0, S1, S2, S3, S4, D; fold N; field; auto).
      rewrite wsum_quad. fold N. unfold S0, S1, S2, S3, S4, D. field. repeat split; auto; lra.
    + rewrite (A 0 0 0) by (intros; unfold wt; ring). rewrite wsum_quad. ring.
Qed.

(** The mean squared error of every component is the square of what errors() returns. *)
Theorem C55_errors : forall (dt : R) (order : nat) (sigma : R) (s0 : lsq RS)
    (e : list (R * list R)) (n : nat) (c0 c1 c2 : R),
  lsq_init (o:=RS) dt false order sigma = Ok s0 -> dt <> 0 -> (order < n)%nat ->
  white e n (sigma ^ 2) -> degree_le order c1 c2 ->
  let run ns := lsq_run (poly_meas dt c0 c1 c2 ns) s0 in
  exists er0 er1 er2 sd0 sd1 sd2,
    (forall ns, length ns = n -> lsq_errors (run ns) = Ok ((er0, er1, er2), (sd0, sd1, sd2))) /\
    ex e (fun ns => (l_x0 (run ns) - c0) ^ 2) = sd0 ^ 2 /\
    ex e (fun ns => (l_x1 (run ns) - c1) ^ 2) = sd1 ^ 2 /\
    ex e (fun ns => (l_x2 (run ns) - c2) ^ 2) = sd2 ^ 2 /\
    er0 ^ 2 = sd0 ^ 2 /\ er1 ^ 2 = sd1 ^ 2 /\ er2 ^ 2 = sd2 ^ 2.
Proof.
  intros dt order sigma s0 e n c0 c1 c2 Hi Hdt Hn Hw Hdeg run.
  destruct (lsq_run_inv dt order sigma [] s0 Hi Hdt) as (Ho & _).
  assert (V : forall i (f : list R -> R) k, (forall ns, length ns = n -> f ns = k * est order i ns) ->
    ex e (fun ns => f ns ^ 2) = k ^ 2 * sigma ^ 2 * wsum (fun a => wt order n i a * wt order n i a) n).
  { intros i f k Hf. rewrite Rmult_assoc, <- (white_rev e n (sigma ^ 2) Hw), <- ex_scal.
    apply ex_ext. eapply Forall_impl; [|exact (proj1 Hw)]. intros [w ns] E. cbn [snd] in *.
    rewrite (Hf ns E). unfold est. rewrite E. ring. }
  assert (V0 := V 0%nat (fun ns => l_x0 (run ns) - c0) 1). assert (V1 := V 1%nat (fun ns => l_x1 (run ns) - c1) (/ dt)).
  assert (V2 := V 2%nat (fun ns => l_x2 (run ns) - c2) (2 / dt ^ 2)). clear V.
  assert (Er : forall ns, length ns = n -> l_x0 (run ns) - c0 = est order 0 ns /\
     l_x1 (run ns) - c1 = est order 1 ns / dt /\ l_x2 (run ns) - c2 = 2 * est order 2 ns / dt ^ 2).
  { intros ns E. apply (lsq_error dt order sigma); auto. rewrite E; exact Hn. }
  assert (H0 : forall ns, length ns = n -> l_x0 (run ns) - c0 = 1 * est order 0 ns)
    by (intros ns E; destruct (Er ns E) as (-> & _); ring).
  assert (H1 : forall ns, length ns = n -> l_x1 (run ns) - c1 = / dt * est order 1 ns)
    by (intros ns E; destruct (Er ns E) as (_ & -> & _); field; exact Hdt).
  assert (H2 : forall ns, length ns = n -> l_x2 (run ns) - c2 = 2 / dt ^ 2 * est order 2 ns)
    by (intros ns E; destruct (Er ns E) as (_ & _ & ->); field; exact Hdt).
  specialize (V0 H0). specialize (V1 H1). specialize (V2 H2).
  rewrite wsum_wt in V0, V1, V2 by assumption. cbv beta in V0, V1, V2.
  assert (Fl : forall ns, length ns = n -> l_n (run ns) = n /\ l_order (run ns) = order /\ l_dt (run ns) = dt /\ l_sigma (run ns) = sigma).
  { intros ns E. destruct (lsq_run_inv dt order sigma (poly_meas dt c0 c1 c2 ns) s0 Hi Hdt) as (_ & f1 & f2 & f3 & f4 & _).
    rewrite poly_meas_length, E in f4. auto. }
  set (N := INR n) in *.
  assert (HN : 1 <= N) by (replace 1 with (INR 1) by reflexivity; apply le_INR; lia).
  assert (P1 : (1 < n)%nat -> 0 < N * (N ^ 2 - 1)).
  { intros H. apply le_INR in H. change (INR 2) with 2 in H. fold N in H. nra. }
  assert (P2 : (2 < n)%nat -> 0 < (N * (N ^ 2 - 1)) * (N ^ 2 - 4)).
  { intros H. apply Rmult_lt_0_compat; [apply P1; lia|]. apply le_INR in H. replace (INR 3) with 3 in H by (cbn; lra).
    fold N in H. nra. }
  assert (Hn0 : n <> 0%nat) by lia.
  destruct order as [|[|[|order]]]; [| | |lia].
  - exists (sigma / sqrt N), 0, 0, (sigma / sqrt N), 0, 0.
    rewrite V0, V1, V2. split.
    + intros ns E. destruct (Fl ns E) as (f1 & f2 & f3 & f4). unfold lsq_errors. rewrite f1, f2, ?f3, f4.
      destruct n as [|n']; [lia|]. reflexivity.
    + repeat split; try (field; exact Hdt). 
      unfold Rdiv. rewrite Rpow_mult_distr, pow_inv, pow2_sqrt by lra. field. lra.
  - assert (h1 := P1 ltac:(lia)).
    exists (sigma * sqrt (2 * (2 * N - 1) / (N * (N + 1)))), (sigma * sqrt (12 / (N * (N * N - 1) * dt * dt))), 0,
      (sigma * sqrt (2 * (2 * N - 1) / (N * (N + 1)))), (sigma / dt * sqrt (12 / (N * (N * N - 1)))), 0.
    rewrite V0, V1, V2. split.
    + intros ns E. destruct (Fl ns E) as (f1 & f2 & f3 & f4). unfold lsq_errors. rewrite f1, f2, ?f3, f4.
      destruct n as [|[|n']]; [lia|lia|]. cbn [Nat.ltb Nat.leb Nat.eqb]. rs. fold N. reflexivity.
    + assert (h2 : 0 < dt ^ 2) by (replace (dt ^ 2) with (Rsqr dt) by (unfold Rsqr; ring); apply Rsqr_pos_lt; exact Hdt).
      assert (0 <= 2 * (2 * N - 1) / (N * (N + 1))) by (apply Rlt_le, Rdiv_lt_0_compat; nra).
      assert (0 <= 12 / (N * (N * N - 1))) by (apply Rlt_le, Rdiv_lt_0_compat; nra).
      assert (0 <= 12 / (N * (N * N - 1) * dt * dt)).
      { apply Rlt_le, Rdiv_lt_0_compat; [lra|]. replace (N * (N * N - 1) * dt * dt) with ((N * (N ^ 2 - 1)) * dt ^ 2) by ring.
        apply Rmult_lt_0_compat; assumption. }
      rewrite !Rpow_mult_distr, !pow2_sqrt by assumption.
      repeat split; try (field; repeat split; auto; try lra; nra).
  - assert (h1 := P1 ltac:(lia)). assert (h2 := P2 ltac:(lia)).
    exists (sigma * sqrt (3 * (3 * N * N - 3 * N + 2) / (N * (N + 1) * (N + 2)))),
      (sigma * sqrt (12 * (16 * N * N - 30 * N + 11) / (N * (N * N - 1) * (N * N - 4) * (dt * dt)))),
      (sigma * sqrt (720 / (N * (N * N - 1) * (N * N - 4) * (dt * dt) * (dt * dt)))),
      (sigma * sqrt (3 * (3 * N * N - 3 * N + 2) / (N * (N + 1) * (N + 2)))),
      (sigma / dt * sqrt (12 * (16 * N * N - 30 * N + 11) / (N * (N * N - 1) * (N * N - 4)))),
      (sigma / (dt * dt) * sqrt (720 / (N * (N * N - 1) * (N * N - 4)))).
    rewrite V0, V1, V2. split.
    + intros ns E. destruct (Fl ns E) as (f1 & f2 & f3 & f4). unfold lsq_errors. rewrite f1, f2, ?f3, f4.
      destruct n as [|[|[|n']]]; [lia|lia|lia|]. cbn [Nat.ltb Nat.leb Nat.eqb orb]. rs. fold N. reflexivity.
    + assert (hd : 0 < dt ^ 2) by (replace (dt ^ 2) with (Rsqr dt) by (unfold Rsqr; ring); apply Rsqr_pos_lt; exact Hdt).
      assert (hN3 : 3 <= N) by (replace 3 with (INR 3) by (cbn; lra); apply le_INR; lia).
      assert (hN1 : N ^ 2 - 1 <> 0) by nra. assert (hN4 : N ^ 2 - 4 <> 0) by nra.
      replace (N * (N * N - 1) * (N * N - 4)) with (N * (N ^ 2 - 1) * (N ^ 2 - 4)) by ring.
      replace (N * (N * N - 1)) with (N * (N ^ 2 - 1)) by ring. replace (N * N - 4) with (N ^ 2 - 4) by ring.
      set (M := N * (N ^ 2 - 1) * (N ^ 2 - 4)) in *.
      assert (hM : M <> 0) by lra.
      assert (0 <= 3 * (3 * N * N - 3 * N + 2) / (N * (N + 1) * (N + 2))) by (apply Rlt_le, Rdiv_lt_0_compat; nra).
      assert (a1 : 0 < 12 * (16 * N * N - 30 * N + 11)) by nra.
      assert (a2 : 0 < M * (dt * dt)) by (apply Rmult_lt_0_compat; [assumption|nra]).
      assert (a3 : 0 < M * (dt * dt) * (dt * dt)) by (apply Rmult_lt_0_compat; [assumption|nra]).
      assert (0 <= 12 * (16 * N * N - 30 * N + 11) / M) by (apply Rlt_le, Rdiv_lt_0_compat; lra).
      assert (0 <= 12 * (16 * N * N - 30 * N + 11) / (M * (dt * dt))) by (apply Rlt_le, Rdiv_lt_0_compat; lra).
      assert (0 <= 720 / M) by (apply Rlt_le, Rdiv_lt_0_compat; lra).
      assert (0 <= 720 / (M * (dt * dt) * (dt * dt))) by (apply Rlt_le, Rdiv_lt_0_compat; lra).
      rewrite !Rpow_mult_distr, !pow2_sqrt by assumption. clearbody M.
      repeat split; field; repeat split; auto; lra.
Qed.
Print Assumptions C55_errors.

(** errors() raises exactly for order 1 with one measurement and order 2 with one or two. *)
Theorem C55_errors_raise : forall (s : lsq RS), (l_order s <= 2)%nat ->
  (lsq_errors s = Err ZeroDivisionError <-> l_order s = 1%nat /\ l_n s = 1%nat \/ l_order s = 2%nat /\ (l_n s = 1%nat \/ l_n s = 2%nat)) /\
  ((exists r, lsq_errors s = Ok r) \/ lsq_errors s = Err ZeroDivisionError).
Proof.
  intros s H. unfold lsq_errors.
  destruct (l_n s) as [|[|[|n]]], (l_order s) as [|[|[|k]]]; try lia; cbn [Nat.eqb Nat.ltb Nat.leb orb].
  all: split; [split; [intros E; try discriminate E; lia|intros E; try reflexivity; lia]|].
  all: try (right; reflexivity); left; eexists; reflexivity.
Qed.
Print Assumptions C55_errors_raise.

(** Two independent errors of +-1, on a filter of order 1. *)
Example C55_example : exists s, lsq_init (o:=RS) 1 false 1 1 = Ok s /\
  white [(1/4, [1; 1]); (1/4, [1; -1]); (1/4, [-1; 1]); (1/4, [-1; -1])] 2 (1 ^ 2).
Proof.
  eexists. split; [reflexivity|]. split; [repeat constructor|].
  intros i j Hi Hj. destruct i as [|[|i]]; destruct j as [|[|j]]; try lia; unfold ex; cbn; lra.
Qed.
