(** * FadingMemoryFilter: C38, C54. *)
From Coq Require Import List Reals Lra Lia Psatz Arith Bool.
From Coquelicot Require Import Coquelicot.
From Verif Require Import Ops RealOps Model_GH Model_LSQ Spec_GH Proof_GH Prop_VRF.
Import ListNotations.
Open Scope R_scope.

Definition fmf_run (zs : list R) (s : fmf RS) : fmf RS :=
  fold_left (fun s z => fmf_update (o:=RS) z s) zs s.

(** The data seen by the filter, by age: the measurements (latest first), preceded by
    the polynomial the filter was initialised with. *)
Fixpoint data (q : nat -> R) (l : list R) (a : nat) : R :=
  match l with
  | [] => q a
  | z :: l => match a with O => z | S a => data q l a end
  end.
(** Discounted sum of squared residuals. *)
Definition dterm (b : R) (d q : nat -> R) (a : nat) : R := b ^ a * (d a - q a) ^ 2.

(** Sequences growing at most quadratically. *)
Definition bnd (f : nat -> R) : Prop := exists C, forall a, Rabs (f a) <= C * (INR a + 1) ^ 2.

Lemma bnd_quad k0 k1 k2 : bnd (fun a => k0 + k1 * INR a + k2 * INR a ^ 2).
Proof.
  exists (Rabs k0 + Rabs k1 + Rabs k2). intros a. pose proof (pos_INR a).
  eapply Rle_trans; [apply Rabs_triang|]. eapply Rle_trans; [apply Rplus_le_compat_r, Rabs_triang|].
  rewrite !Rabs_mult, (Rabs_pos_eq (INR a)), (Rabs_pos_eq (INR a ^ 2)) by (try apply pow_le; lra).
  pose proof (Rabs_pos k0). pose proof (Rabs_pos k1). pose proof (Rabs_pos k2). 
  assert (Rabs k0 * 1 <= Rabs k0 * (INR a + 1) ^ 2) by (apply Rmult_le_compat_l; nra).
  assert (Rabs k1 * INR a <= Rabs k1 * (INR a + 1) ^ 2) by (apply Rmult_le_compat_l; nra).
  assert (Rabs k2 * INR a ^ 2 <= Rabs k2 * (INR a + 1) ^ 2) by (apply Rmult_le_compat_l; nra).
  lra.
Qed.
Lemma bnd_ext f g : (forall a, f a = g a) -> bnd f -> bnd g.
Proof. intros E [C H]. exists C. intros a. rewrite <- E. apply H. Qed.
Lemma bnd_pow p : (p <= 2)%nat -> bnd (fun a => INR a ^ p).
Proof.
  intros Hp. destruct p as [|[|[|p]]]; [| | |lia].
  - apply bnd_ext with (fun a => 1 + 0 * INR a + 0 * INR a ^ 2); [intros; ring|apply bnd_quad].
  - apply bnd_ext with (fun a => 0 + 1 * INR a + 0 * INR a ^ 2); [intros; ring|apply bnd_quad].
  - apply bnd_ext with (fun a => 0 + 0 * INR a + 1 * INR a ^ 2); [intros; ring|apply bnd_quad].
Qed.
Lemma bnd_poly dt c0 c1 c2 : bnd (poly dt c0 c1 c2).
Proof.
  apply bnd_ext with (fun a => c0 + (- c1 * dt) * INR a + (c2 * dt ^ 2 / 2) * INR a ^ 2); [|apply bnd_quad].
  intros a. unfold poly. field.
Qed.
Lemma bnd_minus f g : bnd f -> bnd g -> bnd (fun a => f a - g a).
Proof.
  intros [C H] [D G]. exists (C + D). intros a. unfold Rminus.
  eapply Rle_trans; [apply Rabs_triang|]. rewrite Rabs_Ropp. specialize (H a). specialize (G a). lra.
Qed.
Lemma bnd_data q l : bnd q -> bnd (data q l).
Proof.
  intros Hq. induction l as [|z l [C H]]; [exact Hq|]. exists (Rabs z + Rabs C). intros [|a]; cbn [data].
  - cbn [INR]. pose proof (Rabs_pos C). lra.
  - eapply Rle_trans; [apply H|]. rewrite S_INR. pose proof (pos_INR a). pose proof (Rabs_pos z). pose proof (Rabs_pos C).
    pose proof (Rle_abs C).
    assert (C * (INR a + 1) ^ 2 <= Rabs C * (INR a + 1) ^ 2) by (apply Rmult_le_compat_r; nra).
    assert (Rabs C * (INR a + 1) ^ 2 <= Rabs C * (INR a + 1 + 1) ^ 2) by (apply Rmult_le_compat_l; nra).
    nra.
Qed.

Lemma bnd_shift f : bnd f -> bnd (fun a => f (S a)).
Proof.
  intros [C H]. exists (4 * Rabs C). intros a. eapply Rle_trans; [apply H|]. rewrite S_INR.
  pose proof (pos_INR a). pose proof (Rle_abs C). pose proof (Rabs_pos C).
  assert (C * (INR a + 1 + 1) ^ 2 <= Rabs C * (INR a + 1 + 1) ^ 2) by (apply Rmult_le_compat_r; nra).
  assert (Rabs C * (INR a + 1 + 1) ^ 2 <= Rabs C * (4 * (INR a + 1) ^ 2)) by (apply Rmult_le_compat_l; nra).
  lra.
Qed.

(** ** Series *)
Section Series.
Variable b : R.
Hypothesis Hb : 0 < b < 1.

Lemma lim_ratio : is_lim_seq (fun n => (INR (S n) + 1) / (INR n + 1)) 1.
Proof.
  apply is_lim_seq_ext with (fun n => 1 + / INR (S n)).
  { intros n. rewrite !S_INR. pose proof (pos_INR n). field. lra. }
  replace (Finite 1) with (Rbar_plus 1 0) by (cbn; f_equal; ring).
  apply is_lim_seq_plus with (l1 := 1) (l2 := 0); [apply is_lim_seq_const| |reflexivity].
  apply (is_lim_seq_incr_1 (fun n => / INR n)).
  replace (Finite 0) with (Rbar_inv p_infty) by reflexivity.
  apply is_lim_seq_inv; [apply is_lim_seq_INR|discriminate].
Qed.

Lemma ex_pow4 : ex_series (fun n => b ^ n * (INR n + 1) ^ 4).
Proof.
  apply ex_series_ext with (fun n => Rabs (b ^ n * (INR n + 1) ^ 4)).
  { intros n. apply Rabs_pos_eq. apply Rmult_le_pos; [apply pow_le; lra|apply pow_le; pose proof (pos_INR n); lra]. }
  apply ex_series_DAlembert with b; [lra| |].
  - intros n. apply Rmult_integral_contrapositive_currified; apply pow_nonzero; [lra|pose proof (pos_INR n); lra].
  - apply is_lim_seq_ext with (fun n => b * ((INR (S n) + 1) / (INR n + 1) * ((INR (S n) + 1) / (INR n + 1) *
        ((INR (S n) + 1) / (INR n + 1) * ((INR (S n) + 1) / (INR n + 1)))))).
    { intros n. pose proof (pos_INR n). pose proof (pos_INR (S n)).
      rewrite Rabs_pos_eq.
      - cbn [pow]. field. split; [lra|]. apply pow_nonzero; lra.
      - apply Rle_div_r.
        + apply Rmult_lt_0_compat; apply pow_lt; lra.
        + rewrite Rmult_0_l. apply Rmult_le_pos; apply pow_le; lra. }
    replace (Finite b) with (Rbar_mult b 1) by (cbn; f_equal; ring).
    apply is_lim_seq_scal_l.
    replace (Finite 1) with (Finite (1 * (1 * (1 * 1)))) by (f_equal; ring).
    repeat apply is_lim_seq_mult'; apply lim_ratio.
Qed.

Lemma exscal k (f : nat -> R) : ex_series f -> ex_series (fun a => k * f a).
Proof. exact (@ex_series_scal R_AbsRing R_NormedModule k f). Qed.

Lemma exs f g : bnd f -> bnd g -> ex_series (fun a => b ^ a * (f a * g a)).
Proof.
  intros [C H] [D G]. apply (@ex_series_le R_AbsRing R_CompleteNormedModule) with (fun a => (C * D) * (b ^ a * (INR a + 1) ^ 4)).
  - intros a. change (norm (b ^ a * (f a * g a))) with (Rabs (b ^ a * (f a * g a))).
    assert (0 <= b ^ a) by (apply pow_le; lra).
    rewrite !Rabs_mult, (Rabs_pos_eq (b ^ a)) by assumption.
    replace (C * D * (b ^ a * (INR a + 1) ^ 4)) with (b ^ a * ((C * (INR a + 1) ^ 2) * (D * (INR a + 1) ^ 2))) by ring.
    apply Rmult_le_compat_l; [assumption|]. apply Rmult_le_compat; auto using Rabs_pos.
  - apply (exscal (C * D)). exact ex_pow4.
Qed.

Lemma explus (f g : nat -> R) : ex_series f -> ex_series g -> ex_series (fun a => f a + g a).
Proof. exact (@ex_series_plus R_AbsRing R_NormedModule f g). Qed.
Ltac exser X := repeat first [solve [apply X; (lia || assumption)] | apply exscal | apply explus].

(** Power sums. *)
Definition SS (p q : nat) : R := Series (fun a => b ^ a * (INR a ^ p * INR a ^ q)).

Lemma exs_pow p q : (p <= 2)%nat -> (q <= 2)%nat -> ex_series (fun a => b ^ a * (INR a ^ p * INR a ^ q)).
Proof. intros. apply exs; apply bnd_pow; assumption. Qed.

Lemma SSpow p q r s : (p + q = r + s)%nat -> SS p q = SS r s.
Proof. intros E. apply Series_ext. intros a. rewrite <- !pow_add, E. reflexivity. Qed.

(** One term at a time. *)
Lemma Series_peel f g : bnd f -> bnd g ->
  Series (fun a => b ^ a * (f a * g a)) = f 0%nat * g 0%nat + b * Series (fun a => b ^ a * (f (S a) * g (S a))).
Proof.
  intros Hf Hg. rewrite Series_incr_1 by (apply exs; assumption). cbn [pow]. f_equal; [ring|].
  rewrite <- Series_scal_l. apply Series_ext. intros a. ring.
Qed.

Lemma SS_values :
  SS 0 0 = / (1 - b) /\ SS 0 1 = b / (1 - b) ^ 2 /\ SS 0 2 = b * (1 + b) / (1 - b) ^ 3 /\
  SS 1 2 = b * (1 + 4 * b + b ^ 2) / (1 - b) ^ 4 /\ SS 2 2 = b * (1 + 11 * b + 11 * b ^ 2 + b ^ 3) / (1 - b) ^ 5.
Proof.
  assert (P : forall p q, (p <= 2)%nat -> (q <= 2)%nat ->
    SS p q = INR 0 ^ p * INR 0 ^ q + b * Series (fun a => b ^ a * ((INR a + 1) ^ p * (INR a + 1) ^ q))).
  { intros p q Hp Hq. unfold SS. rewrite (Series_peel (fun a => INR a ^ p) (fun a => INR a ^ q)) by (apply bnd_pow; assumption).
    do 2 f_equal. apply Series_ext. intros a. rewrite S_INR. reflexivity. }
  assert (X : forall p q, (p <= 2)%nat -> (q <= 2)%nat -> ex_series (fun a => b ^ a * (INR a ^ p * INR a ^ q))) by (apply exs_pow).
  assert (h0 : SS 0 0 = / (1 - b)).
  { assert (E := P 0%nat 0%nat ltac:(lia) ltac:(lia)). cbn [pow INR] in E.
    assert (E' : Series (fun a => b ^ a * (1 * 1)) = SS 0 0) by (apply Series_ext; intros; cbn [pow]; ring).
    rewrite E' in E. apply (Rmult_eq_reg_r (1 - b)); [|lra]. rewrite Rinv_l by lra. lra. }
  assert (h1 : SS 0 1 = b / (1 - b) ^ 2).
  { assert (E := P 0%nat 1%nat ltac:(lia) ltac:(lia)). cbn [pow INR] in E.
    assert (E' : Series (fun a => b ^ a * (1 * ((INR a + 1) * 1))) = SS 0 1 + SS 0 0).
    { unfold SS. rewrite <- Series_plus by (apply X; lia). apply Series_ext; intros; cbn [pow]; ring. }
    rewrite E', h0 in E. apply (Rmult_eq_reg_r (1 - b)); [|lra].
    replace (SS 0 1 * (1 - b)) with (b * / (1 - b)) by lra. field. lra. }
  assert (h2 : SS 0 2 = b * (1 + b) / (1 - b) ^ 3).
  { assert (E := P 0%nat 2%nat ltac:(lia) ltac:(lia)). cbn [pow INR] in E.
    assert (E' : Series (fun a => b ^ a * (1 * ((INR a + 1) * ((INR a + 1) * 1)))) = SS 0 2 + (2 * SS 0 1 + SS 0 0)).
    { unfold SS. rewrite <- Series_scal_l, <- !Series_plus.
      all: try solve [exser X]. apply Series_ext; intros; cbn [pow]; ring. }
    rewrite E', h0, h1 in E. apply (Rmult_eq_reg_r (1 - b)); [|lra].
    replace (SS 0 2 * (1 - b)) with (b * (2 * (b / (1 - b) ^ 2) + / (1 - b))) by lra. field. lra. }
  assert (h3 : SS 1 2 = b * (1 + 4 * b + b ^ 2) / (1 - b) ^ 4).
  { assert (E := P 1%nat 2%nat ltac:(lia) ltac:(lia)). cbn [pow INR] in E.
    assert (E' : Series (fun a => b ^ a * ((INR a + 1) * 1 * ((INR a + 1) * ((INR a + 1) * 1)))) = SS 1 2 + (3 * SS 0 2 + (3 * SS 0 1 + SS 0 0))).
    { unfold SS. rewrite <- !Series_scal_l, <- !Series_plus.
      all: try solve [exser X]. apply Series_ext; intros; cbn [pow]; ring. }
    rewrite E', h0, h1, h2 in E. apply (Rmult_eq_reg_r (1 - b)); [|lra].
    replace (SS 1 2 * (1 - b)) with (b * (3 * (b * (1 + b) / (1 - b) ^ 3) + (3 * (b / (1 - b) ^ 2) + / (1 - b)))) by lra. field. lra. }
  repeat split; auto.
  assert (E := P 2%nat 2%nat ltac:(lia) ltac:(lia)). cbn [pow INR] in E.
  assert (E' : Series (fun a => b ^ a * ((INR a + 1) * ((INR a + 1) * 1) * ((INR a + 1) * ((INR a + 1) * 1)))) =
     SS 2 2 + (4 * SS 1 2 + (6 * SS 0 2 + (4 * SS 0 1 + SS 0 0)))).
  { unfold SS. rewrite <- !Series_scal_l, <- !Series_plus.
    all: try solve [exser X]. apply Series_ext; intros; cbn [pow]; ring. }
  rewrite E', h0, h1, h2, h3 in E. apply (Rmult_eq_reg_r (1 - b)); [|lra].
  replace (SS 2 2 * (1 - b)) with (b * (4 * (b * (1 + 4 * b + b ^ 2) / (1 - b) ^ 4) +
     (6 * (b * (1 + b) / (1 - b) ^ 3) + (4 * (b / (1 - b) ^ 2) + / (1 - b))))) by lra.
  field. lra.
Qed.

(** Discounted moments of residuals. *)
Definition W (p : nat) (r : nat -> R) : R := Series (fun a => b ^ a * (INR a ^ p * r a)).
Definition dnormal (order : nat) (r : nat -> R) : Prop :=
  W 0 r = 0 /\ ((1 <= order)%nat -> W 1 r = 0) /\ ((2 <= order)%nat -> W 2 r = 0).

Lemma W_lin f k0 k1 k2 : bnd f ->
  Series (fun a => b ^ a * ((k0 + k1 * INR a + k2 * INR a ^ 2) * f a)) = k0 * W 0 f + k1 * W 1 f + k2 * W 2 f.
Proof.
  intros Hf. unfold W. rewrite <- !Series_scal_l.
  assert (X : forall p, (p <= 2)%nat -> ex_series (fun a => b ^ a * (INR a ^ p * f a))).
  { intros p Hp. apply exs; [apply bnd_pow|]; assumption. }
  rewrite <- !Series_plus.
  all: try solve [exser X]. apply Series_ext. intros a. cbn [pow]. ring.
Qed.

Lemma W_minus p f g : (p <= 2)%nat -> bnd f -> bnd g -> W p (fun a => f a - g a) = W p f - W p g.
Proof.
  intros Hp Hf Hg. unfold W. rewrite <- Series_minus by (apply exs; [apply bnd_pow|]; assumption).
  apply Series_ext. intros a. ring.
Qed.

(** A new datum z with residual y: the moments of the new residuals. *)
Lemma dnormal_step order r r' y k0 k1 k2 : bnd r -> bnd r' ->
  let kap a := k0 - k1 * INR a + k2 * INR a ^ 2 in
  r' 0%nat = y - y * kap 0%nat -> (forall a, r' (S a) = r a - y * kap (S a)) ->
  (order <= 2)%nat ->
  (order = 0%nat -> k0 = 1 - b /\ k1 = 0 /\ k2 = 0) ->
  (order = 1%nat -> k0 = 1 - b ^ 2 /\ k1 = (1 - b) ^ 2 /\ k2 = 0) ->
  (order = 2%nat -> k0 = 1 - b ^ 3 /\ k1 = 3 / 2 * (1 + b) * (1 - b) ^ 2 /\ k2 = (1 - b) ^ 3 / 2) ->
  dnormal order r -> dnormal order r'.
Proof.
  intros Hr Hr' kap H0 HS Ho h0 h1 h2 (w0 & w1 & w2).
  assert (Hk : bnd kap).
  { apply bnd_ext with (fun a => k0 + (- k1) * INR a + k2 * INR a ^ 2); [unfold kap; intros; ring|apply bnd_quad]. }
  assert (K : forall p, (p <= 2)%nat -> W p kap = k0 * SS 0 p - k1 * SS 1 p + k2 * SS 2 p).
  { intros p Hp. unfold W.
    rewrite (Series_ext _ (fun a => b ^ a * ((k0 + (- k1) * INR a + k2 * INR a ^ 2) * INR a ^ p))) by (intros; unfold kap; ring).
    rewrite (W_lin (fun a => INR a ^ p)) by (apply bnd_pow; assumption). unfold W, SS. ring. }
  assert (Z : forall a, r' a + y * kap a = match a with O => y | S a => r a end).
  { intros [|a]; [rewrite H0|rewrite HS]; ring. }
  assert (S1 : forall p, (p <= 2)%nat -> W p r' + y * W p kap =
    0 ^ p * y + b * Series (fun a => b ^ a * ((INR a + 1) ^ p * r a))).
  { intros p Hp. unfold W.
    assert (B : bnd (fun a => r' a + y * kap a)).
    { apply bnd_ext with (fun a => r' a - (- y * kap a)); [intros; ring|]. apply bnd_minus; [exact Hr'|].
      apply bnd_ext with (fun a => (- y * k0) + (y * k1) * INR a + (- y * k2) * INR a ^ 2); [unfold kap; intros; ring|apply bnd_quad]. }
    rewrite <- Series_scal_l, <- Series_plus.
    2:{ apply exs; [apply bnd_pow|]; assumption. }
    2:{ apply (exscal y). apply exs; [apply bnd_pow|]; assumption. }
    rewrite (Series_ext _ (fun a => b ^ a * (INR a ^ p * (r' a + y * kap a)))) by (intros; ring).
    rewrite (Series_peel (fun a => INR a ^ p)) by (try apply bnd_pow; assumption).
    rewrite Z. change (INR 0) with 0. do 2 f_equal. apply Series_ext. intros a. rewrite Z, S_INR. reflexivity. }
  assert (O0 : Series (fun a => b ^ a * ((INR a + 1) ^ 0 * r a)) = W 0 r) by (apply Series_ext; intros; cbn [pow]; ring).
  assert (O1 : Series (fun a => b ^ a * ((INR a + 1) ^ 1 * r a)) = W 0 r + W 1 r).
  { rewrite (Series_ext _ (fun a => b ^ a * ((1 + 1 * INR a + 0 * INR a ^ 2) * r a))) by (intros; ring).
    rewrite W_lin by exact Hr. ring. }
  assert (O2 : Series (fun a => b ^ a * ((INR a + 1) ^ 2 * r a)) = W 0 r + 2 * W 1 r + W 2 r).
  { rewrite (Series_ext _ (fun a => b ^ a * ((1 + 2 * INR a + 1 * INR a ^ 2) * r a))) by (intros; ring).
    rewrite W_lin by exact Hr. ring. }
  destruct SS_values as (v0 & v1 & v2 & v3 & v4).
  assert (T0 := S1 0%nat ltac:(lia)). assert (T1 := S1 1%nat ltac:(lia)). assert (T2 := S1 2%nat ltac:(lia)). clear S1.
  rewrite K in T0, T1, T2 by lia.
  rewrite (SSpow 1 0 0 1 eq_refl), (SSpow 2 0 0 2 eq_refl), v0, v1, v2, O0, w0 in T0.
  rewrite (SSpow 1 1 0 2 eq_refl), (SSpow 2 1 1 2 eq_refl), v1, v2, v3, O1, w0 in T1.
  rewrite v2, v3, v4, O2, w0 in T2.
  clear - T0 T1 T2 Hb Ho h0 h1 h2 w1 w2. unfold dnormal.
  assert (Hb1 : 1 - b <> 0) by lra.
  destruct order as [|[|[|order]]]; [| | |lia].
  - destruct (h0 eq_refl) as (-> & -> & ->). repeat split; try (intros; lia).
    replace (y * ((1 - b) * / (1 - b) - 0 * (b / (1 - b) ^ 2) + 0 * (b * (1 + b) / (1 - b) ^ 3))) with y in T0 by (field; auto).
    cbn [pow] in T0. lra.
  - destruct (h1 eq_refl) as (-> & -> & ->). rewrite w1 in T1 by lia. repeat split; try (intros; lia).
    + match type of T0 with _ + y * ?k = _ => replace k with 1 in T0 by (field; auto) end. cbn [pow] in T0. lra.
    + intros _. match type of T1 with _ + y * ?k = _ => replace k with 0 in T1 by (field; auto) end. cbn [pow] in T1. lra.
  - destruct (h2 eq_refl) as (-> & -> & ->). rewrite w1 in T1, T2 by lia. rewrite w2 in T2 by lia. repeat split; try (intros; lia).
    + match type of T0 with _ + y * ?k = _ => replace k with 1 in T0 by (field; auto) end. cbn [pow] in T0. lra.
    + intros _. match type of T1 with _ + y * ?k = _ => replace k with 0 in T1 by (field; auto) end. cbn [pow] in T1. lra.
    + intros _. match type of T2 with _ + y * ?k = _ => replace k with 0 in T2 by (field; auto) end. cbn [pow] in T2. lra.
Qed.

(** The normal equations give the minimiser. *)
Lemma dnormal_split order dt d c0 c1 c2 e0 e1 e2 : bnd d -> degree_le order c1 c2 -> degree_le order e1 e2 ->
  dnormal order (fun a => d a - poly dt c0 c1 c2 a) ->
  Series (dterm b d (poly dt e0 e1 e2)) = Series (dterm b d (poly dt c0 c1 c2)) +
    Series (fun a => b ^ a * (poly dt c0 c1 c2 a - poly dt e0 e1 e2 a) ^ 2).
Proof.
  intros Hd [c1z c2z] [e1z e2z] (w0 & w1 & w2).
  set (r := fun a => d a - poly dt c0 c1 c2 a) in *.
  set (k0 := c0 - e0). set (k1 := - (c1 - e1) * dt). set (k2 := (c2 - e2) * dt ^ 2 / 2).
  set (D := fun a => k0 + k1 * INR a + k2 * INR a ^ 2).
  assert (ED : forall a, poly dt c0 c1 c2 a - poly dt e0 e1 e2 a = D a) by (intros; unfold D, k0, k1, k2, poly; field).
  assert (Br : bnd r) by (apply bnd_minus; [exact Hd|apply bnd_poly]).
  assert (BD : bnd D) by (apply bnd_quad).
  assert (C : Series (fun a => b ^ a * (D a * r a)) = 0).
  { unfold D. rewrite W_lin, w0 by exact Br.
    destruct order as [|[|order]].
    - unfold k1, k2. rewrite c1z, c2z, e1z, e2z by lia. field.
    - unfold k2. rewrite w1, c2z, e2z by lia. field.
    - rewrite w1, w2 by lia. ring. }
  rewrite (Series_ext _ (fun a => (b ^ a * (r a * r a) + b ^ a * (D a * D a)) + 2 * (b ^ a * (D a * r a)))).
  2:{ intros a. unfold dterm. replace (poly dt e0 e1 e2 a) with (poly dt c0 c1 c2 a - D a) by (rewrite <- ED; ring). unfold r. ring. }
  rewrite Series_plus, Series_plus, Series_scal_l, C.
  all: try solve [exser exs]. rewrite Rmult_0_r, Rplus_0_r. f_equal; apply Series_ext; intros a; unfold dterm, r; rewrite ?ED; ring.
Qed.

End Series.

Lemma Series_pos_zero (f : nat -> R) : (forall a, 0 <= f a) -> ex_series f -> Series f = 0 -> forall a, f a = 0.
Proof.
  intros Hp He H0 n. 
  assert (S : forall m (g : nat -> R), (forall a, 0 <= g a) -> ex_series g -> 0 <= Series g /\ (Series g = 0 -> g m = 0)).
  { assert (P : forall g : nat -> R, (forall a, 0 <= g a) -> ex_series g -> 0 <= Series g).
    { intros g Hg Eg. replace 0 with (Series (fun _ : nat => 0 * 0)) by (rewrite (Series_scal_l 0); ring).
      apply Series_le; [|exact Eg]. intros k. specialize (Hg k). lra. }
    induction m as [|m IH]; intros g Hg Eg.
    - split; [apply P; assumption|]. intros E. rewrite Series_incr_1 in E by exact Eg.
      assert (Q := P (fun k => g (S k)) (fun k => Hg (S k)) (proj1 (ex_series_incr_1 g) Eg)). specialize (Hg 0%nat). lra.
    - split; [apply P; assumption|]. intros E. rewrite Series_incr_1 in E by exact Eg.
      destruct (IH (fun k => g (S k)) (fun k => Hg (S k)) (proj1 (ex_series_incr_1 g) Eg)) as [Q1 Q2].
      specialize (Hg 0%nat). apply Q2. lra. }
  apply (S n f Hp He). exact H0.
Qed.


(** ** C38 *)
Lemma fmf_run_snoc zs z s : fmf_run (zs ++ [z]) s = fmf_update (o:=RS) z (fmf_run zs s).
Proof. unfold fmf_run. rewrite fold_left_app. reflexivity. Qed.

Lemma fmf_run_inv b dt order x0 x1 x2 zs s0 : 0 < b < 1 -> dt <> 0 ->
  fmf_init (o:=RS) x0 x1 x2 dt false order b = Ok s0 -> degree_le order x1 x2 ->
  let s := fmf_run zs s0 in
  (order <= 2)%nat /\ m_dt s = dt /\ m_order s = order /\ m_beta s = b /\ m_P s = m_P s0 /\ m_e s = m_e s0 /\
  degree_le order (m_x1 s) (m_x2 s) /\
  dnormal b order (fun a => data (poly dt x0 x1 x2) (rev zs) a - poly dt (m_x0 s) (m_x1 s) (m_x2 s) a).
Proof.
  intros Hb Hdt Hi Hd0. unfold fmf_init in Hi. cbn [orb] in Hi.
  destruct (2 <? order)%nat eqn:Ho; [discriminate|]. apply Nat.ltb_ge in Ho.
  match type of Hi with context [let (_, _) := ?p in _] => destruct p as [P e] end.
  injection Hi as <-. cbn zeta. induction zs as [|z zs IH] using rev_ind.
  - cbn [fmf_run fold_left rev data m_dt m_order m_beta m_P m_e m_x0 m_x1 m_x2].
    do 6 (split; [auto|]). split; [exact Hd0|].
    assert (Z : forall p, W b p (fun a => poly dt x0 x1 x2 a - poly dt x0 x1 x2 a) = 0).
    { intros p. unfold W. rewrite (Series_ext _ (fun _ => 0 * 0)) by (intros; ring). rewrite Series_scal_l. ring. }
    repeat split; auto.
  - rewrite fmf_run_snoc, rev_app_distr. cbn [rev app].
    set (s := fmf_run zs _) in *. clearbody s.
    destruct IH as (_ & Hdt' & Hord & Hbeta & HP & He & Hdeg & Hnorm).
    assert (Bd : bnd (data (poly dt x0 x1 x2) (rev zs))) by (apply bnd_data, bnd_poly).
    assert (Bd' : bnd (data (poly dt x0 x1 x2) (z :: rev zs))) by (apply bnd_data, bnd_poly).
    destruct Hdeg as [d1 d2].
    set (xp := m_x0 s + m_x1 s * dt + m_x2 s * dt ^ 2 / 2).
    pose proof (dnormal_step b Hb order (fun a => data (poly dt x0 x1 x2) (rev zs) a - poly dt (m_x0 s) (m_x1 s) (m_x2 s) a)) as St.
    destruct order as [|[|[|order]]]; [| | |lia].
    + specialize (d1 ltac:(lia)). specialize (d2 ltac:(lia)).
      unfold fmf_update. rewrite Hord. cbn [m_dt m_order m_beta m_P m_e m_x0 m_x1 m_x2].
      do 6 (split; [auto|]). split; [split; auto|].
      eapply (St _ (z - xp) (1 - b) 0 0); try apply bnd_minus; try apply bnd_poly; auto; try discriminate; try lia.
      * cbn [data]. unfold poly, xp. rs. rewrite Hbeta, d1, d2. cbn [INR]. field.
      * intros a. cbn [data]. unfold poly, xp. rs. rewrite Hbeta, d1, d2, S_INR. field.
    + specialize (d2 ltac:(lia)).
      unfold fmf_update. rewrite Hord. cbn [m_dt m_order m_beta m_P m_e m_x0 m_x1 m_x2].
      do 6 (split; [auto|]). split; [split; intros; [lia|auto]|].
      eapply (St _ (z - xp) (1 - b ^ 2) ((1 - b) ^ 2) 0); try apply bnd_minus; try apply bnd_poly; auto; try discriminate; try lia.
      * cbn [data]. unfold poly, xp. rs. rewrite Hbeta, Hdt', d2. cbn [INR]. field. exact Hdt.
      * intros a. cbn [data]. unfold poly, xp. rs. rewrite Hbeta, Hdt', d2, S_INR. field. exact Hdt.
    + unfold fmf_update. rewrite Hord. cbn [m_dt m_order m_beta m_P m_e m_x0 m_x1 m_x2].
      do 6 (split; [auto|]). split; [split; intros; lia|].
      eapply (St _ (z - xp) (1 - b ^ 3) (3 / 2 * (1 + b) * (1 - b) ^ 2) ((1 - b) ^ 3 / 2));
        try apply bnd_minus; try apply bnd_poly; auto; try discriminate; try lia.
      * cbn [data]. unfold poly, xp. rewrite half_R, three_halves_R. rs. rewrite Hbeta, Hdt'. cbn [INR]. field. exact Hdt.
      * intros a. cbn [data]. unfold poly, xp. rewrite half_R, three_halves_R. rs. rewrite Hbeta, Hdt', S_INR. field. exact Hdt.
Qed.

(** After any measurements the state (value, derivatives) is the unique polynomial of
    degree at most the order minimising the sum over all ages a of beta^a times the
    squared residual, where the data older than the first measurement are those of
    the initial polynomial. *)
Theorem C38_discounted_least_squares : forall (b dt : R) (neg : bool) (order : nat) (x0 x1 x2 : R) (s0 : fmf RS) (zs : list R),
  0 < b < 1 -> dt <> 0 -> fmf_init (o:=RS) x0 x1 x2 dt neg order b = Ok s0 -> degree_le order x1 x2 ->
  let s := fmf_run zs s0 in
  let d := data (poly dt x0 x1 x2) (rev zs) in
  degree_le order (m_x1 s) (m_x2 s) /\
  forall c0 c1 c2, degree_le order c1 c2 ->
    ex_series (dterm b d (poly dt c0 c1 c2)) /\
    Series (dterm b d (poly dt (m_x0 s) (m_x1 s) (m_x2 s))) <= Series (dterm b d (poly dt c0 c1 c2)) /\
    (Series (dterm b d (poly dt (m_x0 s) (m_x1 s) (m_x2 s))) = Series (dterm b d (poly dt c0 c1 c2)) ->
     c0 = m_x0 s /\ c1 = m_x1 s /\ c2 = m_x2 s).
Proof.
  intros b dt neg order x0 x1 x2 s0 zs Hb Hdt Hi Hd0 s d.
  assert (Hneg : neg = false) by (destruct neg; [discriminate Hi|reflexivity]). subst neg.
  destruct (fmf_run_inv b dt order x0 x1 x2 zs s0 Hb Hdt Hi Hd0) as (Ho & _ & _ & _ & _ & _ & Hdeg & Hnorm).
  fold s d in Hdeg, Hnorm. split; [exact Hdeg|]. intros c0 c1 c2 Hc.
  assert (Bd : bnd d) by (apply bnd_data, bnd_poly).
  assert (E : forall e0 e1 e2, ex_series (dterm b d (poly dt e0 e1 e2))).
  { intros. apply ex_series_ext with (fun a => b ^ a * ((d a - poly dt e0 e1 e2 a) * (d a - poly dt e0 e1 e2 a))).
    - intros a. unfold dterm. cbn [pow]. rewrite Rmult_1_r. reflexivity.
    - apply exs; [exact Hb| |]; apply bnd_minus; auto; apply bnd_poly. }
  split; [apply E|].
  rewrite (dnormal_split b Hb order dt d (m_x0 s) (m_x1 s) (m_x2 s) c0 c1 c2 Bd Hdeg Hc Hnorm).
  set (q := fun a => b ^ a * (poly dt (m_x0 s) (m_x1 s) (m_x2 s) a - poly dt c0 c1 c2 a) ^ 2).
  assert (Hq : forall a, 0 <= q a) by (intros a; apply Rmult_le_pos; [apply pow_le; lra|apply pow2_ge_0]).
  assert (Eq : ex_series q).
  { apply ex_series_ext with (fun a => b ^ a * ((poly dt (m_x0 s) (m_x1 s) (m_x2 s) a - poly dt c0 c1 c2 a) * (poly dt (m_x0 s) (m_x1 s) (m_x2 s) a - poly dt c0 c1 c2 a))).
    - intros a. unfold q. cbn [pow]. rewrite Rmult_1_r. reflexivity.
    - apply exs; [exact Hb| |]; apply bnd_minus; apply bnd_poly. }
  split.
  - assert (0 <= Series q).
    { replace 0 with (Series (fun _ : nat => 0 * 0)) by (rewrite (Series_scal_l 0); ring).
      apply Series_le; [|exact Eq]. intros k. specialize (Hq k). lra. }
    lra.
  - intros H. assert (Z : Series q = 0) by lra.
    assert (Hz : forall a, poly dt (m_x0 s) (m_x1 s) (m_x2 s) a = poly dt c0 c1 c2 a).
    { intros a. pose proof (Series_pos_zero q Hq Eq Z a) as Ha. unfold q in Ha.
      apply Rmult_integral in Ha as [Ha|Ha]; [exfalso; revert Ha; apply pow_nonzero; lra|].
      assert (poly dt (m_x0 s) (m_x1 s) (m_x2 s) a - poly dt c0 c1 c2 a = 0) by (apply Rsqr_0_uniq; unfold Rsqr; lra). lra. }
    assert (E0 := Hz 0%nat). assert (E1 := Hz 1%nat). assert (E2 := Hz 2%nat). unfold poly in E0, E1, E2.
    change (INR 0) with 0 in E0. change (INR 1) with 1 in E1. replace (INR 2) with 2 in E2 by (cbn; lra).
    cbn [sc] in *. assert (e0 : c0 = m_x0 s) by lra. split; [exact e0|].
    assert (e2 : c2 * dt ^ 2 = m_x2 s * dt ^ 2) by nra.
    assert (e1 : c1 * dt = m_x1 s * dt) by nra.
    split; [apply (Rmult_eq_reg_r dt); assumption|].
    apply (Rmult_eq_reg_r (dt ^ 2)); [exact e2|]. apply pow_nonzero; exact Hdt.
Qed.
Print Assumptions C38_discounted_least_squares.

Example C38_example : exists s, fmf_init (o:=RS) 3 1 0 (1/2) false 1 (9/10) = Ok s /\ degree_le 1 1 0.
Proof. eexists. split; [reflexivity|]. split; intros; [lia|reflexivity]. Qed.

(** The filter is the g-h filter (order 1) and the g-h-k filter (order 2) with the
    critically damped gains for beta. *)
Definition fmf_as_gh (s : fmf RS) (f : gh RS) : Prop :=
  gh_x f = m_x0 s /\ gh_dx f = m_x1 s /\ gh_dt f = m_dt s.
Definition fmf_as_ghk (s : fmf RS) (f : ghk RS) : Prop :=
  ghk_x f = m_x0 s /\ ghk_dx f = m_x1 s /\ ghk_ddx f = m_x2 s /\ ghk_dt f = m_dt s.
Theorem C38_is_critically_damped : forall (s : fmf RS) (z : R), m_dt s <> 0 ->
  (m_order s = 1%nat -> forall f g h, fmf_as_gh s f ->
     critical_damping_parameters (o:=RS) (m_beta s) 2 = Ok (Gains2 g h) ->
     fmf_as_gh (fmf_update (o:=RS) z s) (gh_update (o:=RS) z (Some g) (Some h) f)) /\
  (m_order s = 2%nat -> forall f g h k, fmf_as_ghk s f ->
     critical_damping_parameters (o:=RS) (m_beta s) 3 = Ok (Gains3 g h k) ->
     fmf_as_ghk (fmf_update (o:=RS) z s) (ghk_update (o:=RS) z (Some g) (Some h) (Some k) f)).
Proof.
  intros s z Hdt. split.
  - intros Ho f g h (h1 & h2 & h3) Hg. unfold critical_damping_parameters in Hg. destruct (_ || _) in Hg; [discriminate|]. cbn [Nat.eqb] in Hg. injection Hg as <- <-.
    unfold fmf_as_gh, fmf_update. rewrite Ho. cbn [m_x0 m_x1 m_dt gh_x gh_dx gh_dt gh_update opt_or]. rs. rewrite h1, h2, h3.
    repeat split; field; exact Hdt.
  - intros Ho f g h k (h1 & h2 & h3 & h4) Hg. unfold critical_damping_parameters in Hg. destruct (_ || _) in Hg; [discriminate|]. cbn [Nat.eqb] in Hg. injection Hg as <- <- <-.
    unfold fmf_as_ghk, fmf_update. rewrite Ho. cbn [m_x0 m_x1 m_x2 m_dt ghk_x ghk_dx ghk_ddx ghk_dt ghk_update opt_or].
    rewrite ?half_R, ?three_halves_R. rs. rewrite h1, h2, h3, h4.
    repeat split; field; exact Hdt.
Qed.
Print Assumptions C38_is_critically_damped.
Example C38_gains_example : exists g h k, critical_damping_parameters (o:=RS) (9/10) 3 = Ok (Gains3 g h k).
Proof.
  unfold critical_damping_parameters. cbn [sltb RS s0 s1].
  replace (Rltb (9/10) 0) with false by (symmetry; apply Rltb_false; lra).
  replace (Rltb 1 (9/10)) with false by (symmetry; apply Rltb_false; lra). cbn [orb Nat.eqb]. eauto.
Qed.

(** ** C54 *)
(** Order 0: one filter and the measurement it receives, target at rest at p. *)
Theorem C54_P_order0 : forall (f : fmf RS) (x0 dt b : R) (e : list (R * (fmf RS * R))) (p s2 : R),
  fmf_init (o:=RS) x0 0 0 dt false 0 b = Ok f -> 0 < b < 1 ->
  List.Forall (fun wa => m_order (fst (snd wa)) = 0%nat /\ m_beta (fst (snd wa)) = b) e ->
  ex e (fun m => (snd m - p) ^ 2) = s2 -> ex e (fun m => (snd m - p) * (m_x0 (fst m) - p)) = 0 ->
  (ex (emap (fun m => fmf_update (o:=RS) (snd m) (fst m)) e) (fun s => (m_x0 s - p) ^ 2) = ex e (fun m => (m_x0 (fst m) - p) ^ 2)
   <-> ex e (fun m => (m_x0 (fst m) - p) ^ 2) = s2 * nth 0 (m_P f : list R) 0).
Proof.
  intros f x0 dt b e p s2 Hi Hb Hl Hn Hu. injection Hi as <-. rewrite ex_emap. cbv beta.
  transitivity (b ^ 2 * ex e (fun m => (m_x0 (fst m) - p) ^ 2) + (1 - b) ^ 2 * s2 = ex e (fun m => (m_x0 (fst m) - p) ^ 2)).
  - assert (E : ex e (fun m => (m_x0 (fmf_update (o:=RS) (snd m) (fst m)) - p) ^ 2) =
      b ^ 2 * ex e (fun m => (m_x0 (fst m) - p) ^ 2) + (1 - b) ^ 2 * s2).
    { rewrite <- Hn. replace ((1 - b) ^ 2 * _) with ((1 - b) ^ 2 * ex e (fun m => (snd m - p) ^ 2)
        + 2 * b * (1 - b) * ex e (fun m => (snd m - p) * (m_x0 (fst m) - p))) by (rewrite Hu; ring).
      rewrite <- !ex_scal, <- !ex_plus. apply ex_ext. eapply List.Forall_impl; [|exact Hl].
      intros [w [s z]] (h1 & h2). cbn [fst snd] in *. unfold fmf_update. rewrite h1. cbn [m_x0]. rs. rewrite h2. ring. }
    split; intros H; [exact (eq_trans (eq_sym E) H)|exact (eq_trans E H)].
  - cbn [m_P nth]. rs. set (v := ex e _). clearbody v. split; intros H.
    + assert (E : v * ((1 - b) * (1 + b)) = (1 - b) ^ 2 * s2) by lra.
      apply (Rmult_eq_reg_r ((1 - b) * (1 + b))); [rewrite E; field; lra|].
      apply prod_neq_R0; lra.
    + rewrite H. field. lra.
Qed.
Print Assumptions C54_P_order0.

(** Order 1 and 2: P against the stationary covariance of the same g-h (g-h-k) filter (C53). *)
Theorem C54_P_order1 : forall (f : fmf RS) (x0 x1 dt b : R) (k : gh RS),
  fmf_init (o:=RS) x0 x1 0 dt false 1 b = Ok f -> 0 < b < 1 -> dt <> 0 ->
  gh_dt k = dt -> gh_g k = 1 - b ^ 2 -> gh_h k = (1 - b) ^ 2 ->
  nth 0 (m_P f : list R) 0 = fst (gh_VRF k) /\ nth 1 (m_P f : list R) 0 = dt ^ 2 * snd (gh_VRF k).
Proof.
  intros f x0 x1 dt b k Hi Hb Hdt kd kg kh. injection Hi as <-. cbn [m_P nth]. unfold gh_VRF. rs. rewrite kd, kg, kh.
  assert (4 - 2 * (1 - b ^ 2) - (1 - b) ^ 2 <> 0) by nra. assert (1 - b ^ 2 <> 0) by nra.
  split; field; repeat split; auto; lra.
Qed.
Print Assumptions C54_P_order1.

Theorem C54_P_order1_refuted : exists (f : fmf RS) (k : gh RS),
  fmf_init (o:=RS) 0 0 0 (1/2) false 1 (1/2) = Ok f /\ gh_dt k = 1/2 /\ gh_g k = 1 - (1/2) ^ 2 /\ gh_h k = (1 - 1/2) ^ 2 /\
  nth 1 (m_P f : list R) 0 <> snd (gh_VRF k).
Proof.
  do 2 eexists. split; [reflexivity|]. split; [|split; [|split]].
  4:{ cbn [m_P nth]. unfold gh_VRF. instantiate (1 := gh_init (o:=RS) 0 0 (1/2) (1 - (1/2)^2) ((1 - 1/2)^2)).
      unfold gh_init. rs. cbn. lra. }
  all: reflexivity.
Qed.
Print Assumptions C54_P_order1_refuted.

Theorem C54_P_order2 : forall (f : fmf RS) (x0 x1 x2 dt b : R) (k : ghk RS),
  fmf_init (o:=RS) x0 x1 x2 dt false 2 b = Ok f -> 0 < b < 1 -> dt <> 0 ->
  ghk_dt k = dt -> ghk_g k = 1 - b ^ 3 -> ghk_h k = 3 / 2 * (1 + b) * (1 - b) ^ 2 -> ghk_k k = (1 - b) ^ 3 / 2 ->
  forall i, (i < 3)%nat -> nth i (m_P f : list R) 0 = ghk_cov k i i.
Proof.
  intros f x0 x1 x2 dt b k Hi Hb Hdt kd kg kh kk. injection Hi as <-. 
  assert (d1 : 4 - 2 * ghk_g k - ghk_h k = (1 + b) ^ 3 / 2) by (cbn [sc] in *; rewrite kg, kh; field).
  assert (d2 : ghk_g k * ghk_h k + ghk_g k * ghk_k k - 2 * ghk_k k = (1 - b) ^ 3 * (1 + b) ^ 3)
    by (cbn [sc] in *; rewrite kg, kh, kk; field).
  intros [|[|[|i]]] Hl; [| | |lia]; cbn [m_P nth]; unfold ghk_cov; cbv zeta; rewrite d1, d2, ?kg, ?kh, ?kk, ?kd; rs.
  all: field; repeat split; try lra; auto.
Qed.
Print Assumptions C54_P_order2.

(** e: the constant lag on a polynomial one degree above the order (t^(order+1), whose
    derivative of that order is (order+1)!). *)
Theorem C54_e_order0 : forall (x0 dt b : R) (f : fmf RS) (p v : R),
  fmf_init (o:=RS) x0 0 0 dt false 0 b = Ok f -> 0 < b < 1 ->
  forall s, m_order s = 0%nat -> m_beta s = b ->
  (m_x0 (fmf_update (o:=RS) (p + v * dt) s) - (p + v * dt) = m_x0 s - p <-> m_x0 s - p = - (v * nth 0 (m_e f : list R) 0)).
Proof.
  intros x0 dt b f p v Hi Hb s Ho Hs. injection Hi as <-. unfold fmf_update. rewrite Ho. cbn [m_x0 m_e nth]. rs.
  rewrite Hs. split; intros H.
  - assert (E : (m_x0 s - p) * (1 - b) = - (v * dt * b)) by (cbn [sc] in *; lra).
    apply (Rmult_eq_reg_r (1 - b)); [|lra]. rewrite E. field. lra.
  - replace (m_x0 s) with (p - v * (dt * b / (1 - b))) by (cbn [sc] in *; lra). field. lra.
Qed.
Print Assumptions C54_e_order0.

Theorem C54_e_order1 : forall (x0 x1 dt b : R) (f : fmf RS) (p v a : R),
  fmf_init (o:=RS) x0 x1 0 dt false 1 b = Ok f -> 0 < b < 1 -> dt <> 0 ->
  forall s, m_order s = 1%nat -> m_beta s = b -> m_dt s = dt ->
  let p' := p + v * dt + a * dt ^ 2 / 2 in let v' := v + a * dt in
  let s' := fmf_update (o:=RS) p' s in
  (m_x0 s' - p' = m_x0 s - p /\ m_x1 s' - v' = m_x1 s - v <->
   m_x0 s - p = - (a / 2 * (dt / 2 * nth 0 (m_e f : list R) 0)) /\ m_x1 s - v = - (a / 2 * nth 1 (m_e f : list R) 0)).
Proof.
  intros x0 x1 dt b f p v a Hi Hb Hdt s Ho Hs Hd p' v' s'. injection Hi as <-. unfold s', p', v', fmf_update.
  rewrite Ho. cbn [m_x0 m_x1 m_e nth]. rs. rewrite Hs, Hd.
  set (X := m_x0 s - p). set (V := m_x1 s - v).
  replace (m_x0 s) with (X + p) by (unfold X; cbn [sc]; ring). replace (m_x1 s) with (V + v) by (unfold V; cbn [sc]; ring).
  clearbody X V. cbn [sc] in *. split; intros [h1 h2].
  - set (y := p + v * dt + a * dt ^ 2 / 2 - (X + p + (V + v) * dt)) in *.
    assert (Hy : y = a * dt ^ 2 / (1 - b) ^ 2).
    { assert (E : (1 - b) ^ 2 / dt * y = a * dt) by lra.
      replace y with ((1 - b) ^ 2 / dt * y * dt / (1 - b) ^ 2) by (field; lra). rewrite E. field. lra. }
    assert (HX : X = - b ^ 2 * y) by (unfold y in *; nra).
    assert (HV : V = (a * dt ^ 2 / 2 - X - y) / dt) by (unfold y; field; auto).
    rewrite HV, HX, Hy. split; field; lra.
  - rewrite h1, h2. split; field; lra.
Qed.
Print Assumptions C54_e_order1.

(** So e[0] is the lag only when dt = 2 (or the lag is 0). *)
Theorem C54_e_order1_refuted : exists (f s : fmf RS) (p v a : R),
  fmf_init (o:=RS) 0 0 0 1 false 1 (1/2) = Ok f /\ m_order s = 1%nat /\ m_beta s = 1/2 /\ m_dt s = 1 /\
  let p' := p + v * 1 + a * 1 ^ 2 / 2 in let v' := v + a * 1 in
  let s' := fmf_update (o:=RS) p' s in
  m_x0 s' - p' = m_x0 s - p /\ m_x1 s' - v' = m_x1 s - v /\
  m_x0 s - p <> - (a / 2 * nth 0 (m_e f : list R) 0).
Proof.
  eexists. exists (mkFMF (o:=RS) 1 1 (1/2) (-2) (-5) 0 [] []), 0, 0, 2.
  split; [reflexivity|]. do 3 (split; [reflexivity|]). cbn [m_x0 m_x1 m_e nth fmf_update m_order]. rs. cbn. repeat split; lra.
Qed.
Print Assumptions C54_e_order1_refuted.

Theorem C54_e_order2 : forall (x0 x1 x2 dt b : R) (f : fmf RS) (p v a j : R),
  fmf_init (o:=RS) x0 x1 x2 dt false 2 b = Ok f -> 0 < b < 1 -> dt <> 0 ->
  forall s, m_order s = 2%nat -> m_beta s = b -> m_dt s = dt ->
  let p' := p + v * dt + a * dt ^ 2 / 2 + j * dt ^ 3 / 6 in let v' := v + a * dt + j * dt ^ 2 / 2 in
  let a' := a + j * dt in
  let s' := fmf_update (o:=RS) p' s in
  (m_x0 s' - p' = m_x0 s - p /\ m_x1 s' - v' = m_x1 s - v /\ m_x2 s' - a' = m_x2 s - a <->
   m_x0 s - p = - (j / 6 * nth 0 (m_e f : list R) 0) /\ m_x1 s - v = - (j / 6 * nth 1 (m_e f : list R) 0) /\
   m_x2 s - a = - (j / 6 * nth 2 (m_e f : list R) 0)).
Proof.
  intros x0 x1 x2 dt b f p v a j Hi Hb Hdt s Ho Hs Hd p' v' a' s'. injection Hi as <-. unfold s', p', v', a', fmf_update.
  rewrite Ho. cbn [m_x0 m_x1 m_x2 m_e nth]. rewrite half_R, three_halves_R. rs. rewrite Hs, Hd.
  set (X := m_x0 s - p). set (V := m_x1 s - v). set (A := m_x2 s - a).
  replace (m_x0 s) with (X + p) by (unfold X; cbn [sc]; ring). replace (m_x1 s) with (V + v) by (unfold V; cbn [sc]; ring).
  replace (m_x2 s) with (A + a) by (unfold A; cbn [sc]; ring).
  clearbody X V A. cbn [sc] in *. split; intros (h1 & h2 & h3).
  - set (y := p + v * dt + a * dt ^ 2 / 2 + j * dt ^ 3 / 6 - (X + p + (V + v) * dt + / 2 * (A + a) * (dt * dt))) in *.
    assert (Hy : y = j * dt ^ 3 / (1 - b) ^ 3).
    { assert (E : (1 - b) ^ 3 / dt ^ 2 * y = j * dt).
      { replace ((1 - b) ^ 3 / dt ^ 2 * y) with (2 * (/ 2 * ((1 - b) * ((1 - b) * (1 - b)))) / (dt * dt) * y) by (field; auto). lra. }
      replace y with ((1 - b) ^ 3 / dt ^ 2 * y * dt ^ 2 / (1 - b) ^ 3) by (field; lra). rewrite E. field. lra. }
    assert (HX : X = - b ^ 3 * y) by (unfold y in *; nra).
    assert (HA : A = j * dt / 2 - 3 / 2 * (1 + b) * (1 - b) ^ 2 / dt ^ 2 * y).
    { apply (Rmult_eq_reg_r dt); [|exact Hdt].
      replace ((j * dt / 2 - 3 / 2 * (1 + b) * (1 - b) ^ 2 / dt ^ 2 * y) * dt) with
        (j * dt ^ 2 / 2 - 3 / 2 * (1 + b) * ((1 - b) * (1 - b)) / dt * y) by (field; auto). lra. }
    assert (HV : V = (j * dt ^ 3 / 6 - X - y - / 2 * A * dt ^ 2) / dt) by (unfold y; field; auto).
    rewrite HV, HA, HX, Hy. repeat split; field; lra.
  - rewrite h1, h2, h3. repeat split; field; lra.
Qed.
Print Assumptions C54_e_order2.
Example C54_example : exists f, fmf_init (o:=RS) 0 0 0 (1/2) false 2 (1/2) = Ok f /\ 0 < 1/2 < 1.
Proof. eexists. split; [reflexivity|lra]. Qed.
