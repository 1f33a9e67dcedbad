(** * Order and rounding in binary64, through Flocq's real-number semantics. *)
From Coq Require Import List Arith Lia Bool ZArith Reals Lra Floats Uint63.
From Flocq Require Import Core BinarySingleNaN PrimFloat.
From Verif Require Import Ops ListOps Proof_Float.
Import ListNotations.
Local Notation float := Coq.Floats.PrimFloat.float.
Open Scope R_scope.
#[local] Instance Hprec : Prec_gt_0 prec := eq_refl _.
#[local] Instance Hmax : Prec_lt_emax prec emax := eq_refl _.

Notation rnd := (round radix2 (SpecFloat.fexp prec emax) (round_mode mode_NE)).
Notation big := (bpow radix2 emax).

(** The number a float stands for; infinities are 2^1024, which is above every finite float. *)
Definition ebv (b : binary_float prec emax) : R :=
  match b with B754_infinity s => if s then - big else big | _ => B2R b end.
Definition ev (x : float) : R := ebv (Prim2B x).
Definition num (x : float) : Prop := PrimFloat.is_nan x = false.

Lemma num_B x : num x <-> BinarySingleNaN.is_nan (Prim2B x) = false.
Proof. unfold num. rewrite is_nan_equiv. tauto. Qed.
Lemma big_pos : 0 < big.
Proof. apply bpow_gt_0. Qed.
Lemma num_dec x : num x \/ PrimFloat.is_nan x = true.
Proof. unfold num. destruct (PrimFloat.is_nan x); auto. Qed.

Lemma bleb_ebv (a b : binary_float prec emax) : BinarySingleNaN.is_nan a = false -> BinarySingleNaN.is_nan b = false ->
  Bleb a b = true <-> ebv a <= ebv b.
Proof.
  intros Na Nb.
  assert (Bd : forall c : binary_float prec emax, - big < B2R c < big) by (intros c; apply Rabs_lt_inv, abs_B2R_lt_emax).
  pose proof big_pos as Bp.
  assert (Fin : is_finite a = true -> is_finite b = true -> Bleb a b = true <-> B2R a <= B2R b).
  { intros Fa Fb. rewrite Bleb_correct by auto. destruct (Rle_bool_spec (B2R a) (B2R b)); split; intros; auto; try discriminate; lra. }
  pose proof (Bd a) as Ba. pose proof (Bd b) as Bb.
  destruct a as [sa|sa| |sa ma ea Ha]; try discriminate; destruct b as [sb|sb| |sb mb eb Hb]; try discriminate;
    try (apply Fin; reflexivity); clear Fin; cbn [ebv];
    try (destruct sa; unfold Bleb; cbn [B2SF SFleb SFcompare]; split; intros; auto; try discriminate; lra);
    try (destruct sb; unfold Bleb; cbn [B2SF SFleb SFcompare]; split; intros; auto; try discriminate; lra).
  destruct sa, sb; unfold Bleb; cbn [B2SF SFleb SFcompare]; split; intros; auto; try discriminate; lra.
Qed.
Lemma leb_ev x y : num x -> num y -> (x <=? y)%float = true <-> ev x <= ev y.
Proof. intros Nx Ny. apply num_B in Nx. apply num_B in Ny. rewrite leb_equiv. apply bleb_ebv; auto. Qed.

Lemma ev_zero : ev 0%float = 0.
Proof. reflexivity. Qed.
Lemma ebv_fin (b : binary_float prec emax) : is_finite b = true -> ebv b = B2R b.
Proof. destruct b; intros; try discriminate; reflexivity. Qed.
Lemma ev_one : ev 1%float = 1.
Proof.
  unfold ev. change 1%float with PrimFloat.one. rewrite one_equiv, Prim2B_B2Prim.
  rewrite ebv_fin by apply is_finite_Bone. apply Bone_correct.
Qed.
Lemma leb_num x y : (x <=? y)%float = true -> num x /\ num y.
Proof.
  intros H. rewrite FloatAxioms.leb_spec in H. unfold num. rewrite !is_nan_equiv.
  rewrite <- !B2SF_Prim2B in H. destruct (Prim2B x), (Prim2B y); cbn in *; auto; discriminate.
Qed.
Lemma nn_ev x : num x -> nn x <-> 0 <= ev x.
Proof.
  intros N. rewrite nn_iff. rewrite <- ev_zero, <- leb_ev; auto; [|reflexivity]. unfold num in N. rewrite N.
  split; [intros [H|H]; [discriminate|exact H]|auto].
Qed.

Lemma big_format : generic_format radix2 (SpecFloat.fexp prec emax) big.
Proof. apply generic_format_bpow. vm_compute. discriminate. Qed.
Lemma rnd_big r : big <= r -> big <= rnd r.
Proof.
  intros H. rewrite <- (round_generic radix2 (SpecFloat.fexp prec emax) (round_mode mode_NE) big big_format).
  apply round_le; auto; typeclasses eauto.
Qed.
Lemma rnd_le a b : a <= b -> rnd a <= rnd b.
Proof. intros H. apply round_le; auto; typeclasses eauto. Qed.
Lemma rnd_id (b : binary_float prec emax) : rnd (B2R b) = B2R b.
Proof. apply round_generic; [typeclasses eauto|apply generic_format_B2R]. Qed.
Lemma rnd_1 : rnd 1 = 1.
Proof. rewrite <- (Bone_correct prec emax _ _). apply rnd_id. Qed.
Lemma rnd_0 : rnd 0 = 0.
Proof. apply round_0; typeclasses eauto. Qed.

(** Adding something that is not negative. *)
Lemma bplus_up (a b : binary_float prec emax) : BinarySingleNaN.is_nan a = false -> BinarySingleNaN.is_nan b = false ->
  0 <= ebv a -> 0 <= ebv b ->
  BinarySingleNaN.is_nan (Bplus mode_NE a b) = false /\ ebv (Bplus mode_NE a b) = Rmin (rnd (ebv a + ebv b)) big.
Proof.
  intros Na Nb Pa Pb. pose proof big_pos as Bp.
  assert (Gb : forall r, big <= r -> Rmin (rnd r) big = big) by (intros r H; apply Rmin_right, rnd_big, H).
  destruct (is_finite a) eqn:Fa; destruct (is_finite b) eqn:Fb.
  - rewrite (ebv_fin a Fa) in *. rewrite (ebv_fin b Fb) in *.
    pose proof (Bplus_correct prec emax _ _ mode_NE a b Fa Fb) as C.
    destruct (Rlt_bool_spec (Rabs (rnd (B2R a + B2R b))) big) as [L|L].
    + destruct C as (E & Fi & _). split; [destruct (Bplus mode_NE a b); try discriminate; reflexivity|].
      rewrite ebv_fin by exact Fi. rewrite E. symmetry. apply Rmin_left. apply Rabs_def2 in L. lra.
    + destruct C as [E S]. cbn in E. 
      assert (Nn : 0 <= rnd (B2R a + B2R b)) by (rewrite <- rnd_0; apply rnd_le; lra).
      rewrite Rabs_pos_eq in L by exact Nn.
      assert (Sa : Bsign a = false).
      { destruct (Bsign a) eqn:Sa; [exfalso|reflexivity].
        assert (Z : forall c : binary_float prec emax, is_finite c = true -> Bsign c = true -> 0 <= B2R c -> B2R c = 0).
        { intros c Fc Sc Pc. destruct c as [s|s| |s m e H]; try discriminate; [reflexivity|].
          cbn in Sc. subst s. exfalso. assert (B2R (B754_finite true m e H) < 0); [|lra].
          unfold B2R. apply F2R_lt_0. reflexivity. }
        rewrite (Z a Fa Sa Pa), (Z b Fb (eq_sym S) Pb), Rplus_0_l, rnd_0 in L. lra. }
      rewrite Sa in E. destruct (Bplus mode_NE a b) as [s|s| |s m e H]; try discriminate E. injection E as ->.
      split; [reflexivity|]. cbn [ebv]. symmetry. apply Rmin_right. exact L.
  - destruct b as [sb|sb| |sb mb eb Hb]; try discriminate. destruct sb; [cbn [ebv] in Pb; lra|].
    destruct a as [sa|sa| |sa ma ea Ha]; try discriminate; (split; [reflexivity|]); change (ebv (Bplus mode_NE _ _)) with big;
      symmetry; apply Gb; cbn [ebv] in *; lra.
  - destruct a as [sa|sa| |sa ma ea Ha]; try discriminate. destruct sa; [cbn [ebv] in Pa; lra|].
    destruct b as [sb|sb| |sb mb eb Hb]; try discriminate; (split; [reflexivity|]); change (ebv (Bplus mode_NE _ _)) with big;
      symmetry; apply Gb; cbn [ebv] in *; lra.
  - destruct a as [sa|sa| |sa ma ea Ha]; try discriminate. destruct b as [sb|sb| |sb mb eb Hb]; try discriminate.
    destruct sa; [cbn [ebv] in Pa; lra|]. destruct sb; [cbn [ebv] in Pb; lra|].
    split; [reflexivity|]. change (ebv (Bplus mode_NE _ _)) with big. symmetry; apply Gb; cbn [ebv]; lra.
Qed.
Lemma ev_id x : num x -> ev x <= big /\ rnd (ev x) = ev x.
Proof.
  intros N. apply num_B in N. unfold ev. destruct (Prim2B x) as [s|s| |s m e H] eqn:E; try discriminate.
  - split; [pose proof big_pos; cbn; lra|apply rnd_0].
  - pose proof big_pos. split; [destruct s; cbn; lra|]. cbn [ebv].
    assert (G : rnd big = big) by (apply round_generic; [typeclasses eauto|apply big_format]).
    destruct s; [|exact G]. etransitivity; [exact (round_NE_opp radix2 (SpecFloat.fexp prec emax) big)|]. f_equal. exact G.
  - split; [|apply (rnd_id (B754_finite s m e H))]. cbn [ebv].
    pose proof (abs_B2R_lt_emax prec emax (B754_finite s m e H)) as A. apply Rabs_def2 in A. lra.
Qed.
Lemma fadd_ev x y : num x -> num y -> nn x -> nn y -> num (x + y)%float /\ ev (x + y)%float = Rmin (rnd (ev x + ev y)) big.
Proof.
  intros Nx Ny Px Py. apply nn_ev in Px; auto. apply nn_ev in Py; auto.
  rewrite num_B. unfold ev. rewrite add_equiv. apply bplus_up; auto; apply num_B; auto.
Qed.
Lemma fadd_up x y : num x -> num y -> nn x -> nn y -> num (x + y)%float /\ ev x <= ev (x + y)%float /\ ev y <= ev (x + y)%float.
Proof.
  intros Nx Ny Px Py. destruct (fadd_ev x y Nx Ny Px Py) as [N E]. split; [exact N|]. rewrite E.
  destruct (ev_id x Nx) as [Bx Ix]. destruct (ev_id y Ny) as [By Iy].
  apply nn_ev in Px; auto. apply nn_ev in Py; auto.
  split; apply Rmin_glb; auto; [rewrite <- Ix at 1|rewrite <- Iy at 1]; apply rnd_le; lra.
Qed.
Lemma add_nan x y : num (x + y)%float -> num x /\ num y.
Proof.
  rewrite !num_B, add_equiv. destruct (Prim2B x), (Prim2B y); cbn; auto; discriminate.
Qed.

(** A part divided by something at least as large. *)
Lemma fdiv_part x y : num x -> num y -> nn x -> ev x <= ev y -> num (x / y)%float -> 0 <= ev (x / y)%float <= 1.
Proof.
  intros Nx Ny Px L. apply nn_ev in Px; auto. rewrite num_B in *. unfold ev in *. rewrite div_equiv.
  set (a := Prim2B x) in *. set (b := Prim2B y) in *. clearbody a b. intros Nq.
  destruct (is_finite b) eqn:Fb.
  - assert (Fa : is_finite a = true).
    { destruct a as [s|s| |s m e H]; try discriminate; auto. destruct s; cbn [ebv] in *; [pose proof big_pos; lra|].
      rewrite ebv_fin in L by exact Fb. pose proof (abs_B2R_lt_emax prec emax b) as A. apply Rabs_def2 in A. lra. }
    rewrite (ebv_fin a Fa) in *. rewrite (ebv_fin b Fb) in *.
    destruct (Req_dec (B2R b) 0) as [Z|NZ].
    + (* 0/0 is NaN *)
      assert (Za : B2R a = 0) by lra. exfalso.
      destruct a as [s|s| |s m e H]; try discriminate; destruct b as [t|t| |t mb eb Hb]; try discriminate;
        try (apply eq_0_F2R in Z; destruct t; discriminate Z); apply eq_0_F2R in Za; destruct s; discriminate Za.
    + assert (Q : 0 <= B2R a / B2R b <= 1).
      { assert (0 < B2R b) by lra. split; [apply Rmult_le_pos; [lra|left; apply Rinv_0_lt_compat; auto]|].
        apply (Rmult_le_reg_r (B2R b)); auto. unfold Rdiv. rewrite Rmult_assoc, Rinv_l by auto. lra. }
      assert (RQ : 0 <= rnd (B2R a / B2R b) <= 1) by (rewrite <- rnd_0, <- rnd_1; split; apply rnd_le; rewrite ?rnd_0, ?rnd_1; lra).
      pose proof (Bdiv_correct prec emax _ _ mode_NE a b NZ) as C.
      rewrite Rlt_bool_true in C.
      * destruct C as (E & Fi & _). rewrite ebv_fin by (etransitivity; [exact Fi|exact Fa]).
        match goal with |- 0 <= ?t <= 1 => replace t with (rnd (B2R a / B2R b)) by (symmetry; exact E) end. exact RQ.
      * rewrite Rabs_pos_eq by apply RQ. eapply Rle_lt_trans; [apply RQ|]. change 1 with (bpow radix2 0). apply bpow_lt. reflexivity.
  - destruct b as [t|t| |t mb eb Hb]; try discriminate.
    destruct a as [s|s| |s m e H]; try discriminate; cbn; lra.
Qed.

Lemma bltb_ebv (a b : binary_float prec emax) : BinarySingleNaN.is_nan a = false -> BinarySingleNaN.is_nan b = false ->
  Bltb a b = true <-> ebv a < ebv b.
Proof.
  intros Na Nb.
  assert (Bd : forall c : binary_float prec emax, - big < B2R c < big) by (intros c; apply Rabs_lt_inv, abs_B2R_lt_emax).
  pose proof big_pos as Bp.
  assert (Fin : is_finite a = true -> is_finite b = true -> Bltb a b = true <-> B2R a < B2R b).
  { intros Fa Fb. rewrite Bltb_correct by auto. destruct (Rlt_bool_spec (B2R a) (B2R b)); split; intros; auto; try discriminate; lra. }
  pose proof (Bd a) as Ba. pose proof (Bd b) as Bb.
  destruct a as [sa|sa| |sa ma ea Ha]; try discriminate; destruct b as [sb|sb| |sb mb eb Hb]; try discriminate;
    try (apply Fin; reflexivity); clear Fin; cbn [ebv];
    try (destruct sa; unfold Bltb; cbn [B2SF SFltb SFcompare]; split; intros; auto; try discriminate; lra);
    try (destruct sb; unfold Bltb; cbn [B2SF SFltb SFcompare]; split; intros; auto; try discriminate; lra).
  destruct sa, sb; unfold Bltb; cbn [B2SF SFltb SFcompare]; split; intros; auto; try discriminate; lra.
Qed.
Lemma ltb_ev x y : num x -> num y -> (x <? y)%float = true <-> ev x < ev y.
Proof. intros Nx Ny. apply num_B in Nx. apply num_B in Ny. rewrite ltb_equiv. apply bltb_ebv; auto. Qed.
Lemma ltb_ev_false x y : num x -> num y -> (x <? y)%float = false <-> ev y <= ev x.
Proof.
  intros Nx Ny. pose proof (ltb_ev x y Nx Ny) as L. destruct (x <? y)%float; split; intros H; auto; try discriminate.
  - apply proj1 in L. specialize (L eq_refl). lra.
  - apply Rnot_lt_le. intros H'. apply L in H'. discriminate.
Qed.
Lemma ltb_num x y : (x <? y)%float = true -> num x /\ num y.
Proof.
  intros H. rewrite FloatAxioms.ltb_spec in H. unfold num. rewrite !is_nan_equiv.
  rewrite <- !B2SF_Prim2B in H. destruct (Prim2B x), (Prim2B y); cbn in *; auto; discriminate.
Qed.

(** A sum is at least each of its terms. *)
Definition nneg (x : float) : Prop := num x /\ 0 <= ev x.
Lemma nneg_leb x : nneg x <-> (0 <=? x)%float = true.
Proof.
  split.
  - intros [N P]. apply (leb_ev 0%float x (eq_refl : num 0%float) N). rewrite ev_zero. exact P.
  - intros H. destruct (leb_num _ _ H) as [_ N]. split; auto. apply (leb_ev 0%float x (eq_refl : num 0%float) N) in H. rewrite ev_zero in H. exact H.
Qed.
Lemma nneg_nn x : nneg x -> nn x.
Proof. intros [N P]. apply nn_ev; auto. Qed.
Lemma nn_nneg x : nn x -> num x -> nneg x.
Proof. intros P N. split; auto. apply nn_ev; auto. Qed.
Lemma nneg_add x y : nneg x -> nneg y -> nneg (x + y)%float /\ ev x <= ev (x + y)%float /\ ev y <= ev (x + y)%float.
Proof.
  intros Hx Hy. destruct (fadd_up x y (proj1 Hx) (proj1 Hy) (nneg_nn _ Hx) (nneg_nn _ Hy)) as (N & A & B).
  repeat split; auto. destruct Hx. lra.
Qed.
Lemma fsum_ge l : forall a, nneg a -> Forall nneg l ->
  nneg (fold_left PrimFloat.add l a) /\ ev a <= ev (fold_left PrimFloat.add l a) /\ forall x, In x l -> ev x <= ev (fold_left PrimFloat.add l a).
Proof.
  induction l as [|b l IH]; intros a Ha Hl; [cbn; repeat split; try apply Ha; try lra; contradiction|].
  inversion Hl as [|b' l' Hb Hl']; subst. cbn [fold_left]. destruct (nneg_add a b Ha Hb) as (S & A & B).
  destruct (IH _ S Hl') as (S' & A' & B'). repeat split; try apply S'; [lra|]. intros x [<-|Hx]; [lra|auto].
Qed.
Lemma fsum_num l : forall a, num (fold_left PrimFloat.add l a) -> num a /\ Forall num l.
Proof.
  induction l as [|b l IH]; intros a H; [auto|]. cbn [fold_left] in H. apply IH in H as [H Hl]. apply add_nan in H as [A B]. auto.
Qed.

(** Adding and dividing keep the order. *)
Lemma fadd_mono x y x' y' : nneg x -> nneg y -> nneg x' -> nneg y' -> ev x <= ev x' -> ev y <= ev y' -> ev (x + y)%float <= ev (x' + y')%float.
Proof.
  intros Hx Hy Hx' Hy' A B.
  rewrite (proj2 (fadd_ev x y (proj1 Hx) (proj1 Hy) (nneg_nn _ Hx) (nneg_nn _ Hy))).
  rewrite (proj2 (fadd_ev x' y' (proj1 Hx') (proj1 Hy') (nneg_nn _ Hx') (nneg_nn _ Hy'))).
  apply Rle_min_compat_r, rnd_le. lra.
Qed.
Lemma ev_lt_fin x : num x -> Rabs (ev x) < big -> is_finite (Prim2B x) = true.
Proof.
  rewrite num_B. unfold ev. destruct (Prim2B x) as [s|s| |s m e H]; try discriminate; auto.
  intros _ H. exfalso. pose proof big_pos. destruct s; cbn [ebv] in H; [rewrite Rabs_Ropp in H|]; rewrite Rabs_pos_eq in H; lra.
Qed.
Lemma fdiv_ev x y : num x -> num y -> 0 <= ev x < big -> 1 <= ev y < big -> num (x / y)%float /\ ev (x / y)%float = rnd (ev x / ev y).
Proof.
  intros Nx Ny Rx Ry. assert (Fx : is_finite (Prim2B x) = true) by (apply ev_lt_fin; auto; rewrite Rabs_pos_eq; lra).
  assert (Fy : is_finite (Prim2B y) = true) by (apply ev_lt_fin; auto; rewrite Rabs_pos_eq; lra).
  rewrite num_B. unfold ev in *. rewrite div_equiv. set (a := Prim2B x) in *. set (b := Prim2B y) in *. clearbody a b.
  rewrite (ebv_fin a Fx) in *. rewrite (ebv_fin b Fy) in *.
  assert (Q : 0 <= B2R a / B2R b <= B2R a).
  { split; [apply Rmult_le_pos; [lra|left; apply Rinv_0_lt_compat; lra]|].
    unfold Rdiv. rewrite <- (Rmult_1_r (B2R a)) at 2. apply Rmult_le_compat_l; [lra|]. rewrite <- Rinv_1. apply Rinv_le; lra. }
  assert (RQ : 0 <= rnd (B2R a / B2R b) <= B2R a) by (split; [rewrite <- rnd_0 at 1|rewrite <- (rnd_id a) at 2]; apply rnd_le; lra).
  assert (NZ : B2R b <> 0) by lra.
  pose proof (Bdiv_correct prec emax _ _ mode_NE a b NZ) as C. rewrite Rlt_bool_true in C by (rewrite Rabs_pos_eq; lra).
  destruct C as (E & Fi & _).
  assert (Fi' : is_finite (Bdiv mode_NE a b) = true) by (etransitivity; [exact Fi|exact Fx]).
  change (BinarySingleNaN.is_nan (Bdiv mode_NE a b) = false /\ ebv (Bdiv mode_NE a b) = rnd (B2R a / B2R b)).
  split; [destruct (Bdiv mode_NE a b); try discriminate Fi'; reflexivity|]. rewrite (ebv_fin _ Fi'). exact E.
Qed.

(** Whole numbers up to 2^53. *)
Definition fnat (k : nat) : float := PrimFloat.of_uint63 (Uint63.of_Z (Z.of_nat k)).
Lemma int_format z : (0 <= z <= 2 ^ 53)%Z -> generic_format radix2 (SpecFloat.fexp prec emax) (IZR z).
Proof.
  intros H. destruct (Z.eq_dec z (2 ^ 53)) as [E|NE].
  - assert (G : IZR z = bpow radix2 53) by (rewrite E, <- IZR_Zpower by lia; reflexivity).
    rewrite G. apply generic_format_bpow. vm_compute. discriminate.
  - apply (generic_format_FLT radix2 (3 - emax - prec) prec).
    apply (FLT_spec _ _ _ _ (Defs.Float radix2 z 0)); [unfold F2R; cbn; lra| |vm_compute; discriminate].
    cbn [Fnum]. change (radix2 ^ prec)%Z with (2 ^ 53)%Z. lia.
Qed.
Lemma fnat_ev k : (Z.of_nat k <= 2 ^ 53)%Z -> num (fnat k) /\ ev (fnat k) = INR k.
Proof.
  intros H.
  assert (E : Prim2B (fnat k) = binary_normalize prec emax _ _ mode_NE (Z.of_nat k) 0 false).
  { unfold fnat. etransitivity; [apply of_int63_equiv|]. f_equal. rewrite Uint63.of_Z_spec. apply Z.mod_small. split; [lia|].
    eapply Z.le_lt_trans; [exact H|reflexivity]. }
  pose proof (binary_normalize_correct prec emax _ _ mode_NE (Z.of_nat k) 0 false) as C. cbv zeta in C.
  assert (V : F2R (Float radix2 (Z.of_nat k) 0) = INR k) by (unfold F2R; cbn; rewrite Rmult_1_r, INR_IZR_INZ; reflexivity).
  rewrite V in C.
  assert (G : rnd (INR k) = INR k) by (apply round_generic; [typeclasses eauto|]; rewrite INR_IZR_INZ; apply int_format; lia).
  assert (L : INR k < big).
  { rewrite INR_IZR_INZ. apply Rle_lt_trans with (bpow radix2 53); [|apply bpow_lt; reflexivity].
    rewrite <- IZR_Zpower by lia. apply IZR_le. exact H. }
  rewrite G in C. rewrite Rlt_bool_true in C by (rewrite Rabs_pos_eq; [exact L|apply pos_INR]).
  destruct C as (A & B & _). rewrite num_B. unfold ev. rewrite E. 
  split; [destruct (binary_normalize prec emax _ _ mode_NE (Z.of_nat k) 0 false); try discriminate B; reflexivity|].
  rewrite (ebv_fin _ B). exact A.
Qed.
Lemma div_num x y : num (x / y)%float -> num x /\ num y.
Proof.
  rewrite !num_B, div_equiv. intros H. split.
  - destruct (Prim2B x) eqn:E; try reflexivity. destruct (Prim2B y); discriminate H.
  - destruct (Prim2B y) eqn:E; try reflexivity. destruct (Prim2B x); discriminate H.
Qed.
(** A part of a positive finite whole is a number. *)
Lemma fdiv_part_num x y : num x -> num y -> 0 <= ev x <= ev y -> 0 < ev y < big -> num (x / y)%float.
Proof.
  intros Nx Ny Rx Ry. assert (Fx : is_finite (Prim2B x) = true) by (apply ev_lt_fin; auto; rewrite Rabs_pos_eq; lra).
  assert (Fy : is_finite (Prim2B y) = true) by (apply ev_lt_fin; auto; rewrite Rabs_pos_eq; lra).
  rewrite num_B. unfold ev in *. rewrite div_equiv. set (a := Prim2B x) in *. set (b := Prim2B y) in *. clearbody a b.
  rewrite (ebv_fin a Fx) in *. rewrite (ebv_fin b Fy) in *.
  assert (Q : 0 <= B2R a / B2R b <= 1).
  { split; [apply Rmult_le_pos; [lra|left; apply Rinv_0_lt_compat; lra]|].
    apply (Rmult_le_reg_r (B2R b)); [lra|]. unfold Rdiv. rewrite Rmult_assoc, Rinv_l by lra. lra. }
  assert (RQ : 0 <= rnd (B2R a / B2R b) <= 1) by (rewrite <- rnd_0, <- rnd_1; split; apply rnd_le; rewrite ?rnd_0, ?rnd_1; lra).
  assert (B1 : 1 < big) by (change 1 with (bpow radix2 0); apply bpow_lt; reflexivity).
  assert (NZ : B2R b <> 0) by lra.
  pose proof (Bdiv_correct prec emax _ _ mode_NE a b NZ) as C. rewrite Rlt_bool_true in C by (rewrite Rabs_pos_eq; lra).
  destruct C as (E & Fi & _).
  assert (Fi' : is_finite (Bdiv mode_NE a b) = true) by (etransitivity; [exact Fi|exact Fx]).
  change (BinarySingleNaN.is_nan (Bdiv mode_NE a b) = false). destruct (Bdiv mode_NE a b); try discriminate Fi'; reflexivity.
Qed.
Lemma ev_inf : ev PrimFloat.infinity = big.
Proof. reflexivity. Qed.
