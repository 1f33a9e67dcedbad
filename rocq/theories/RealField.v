(** * The real numbers of the standard library as an ordered field.

    The exact-arithmetic theorems hold over every ordered field; this file shows that the
    reals, with their square root, exponential and logarithm, are one.  No model content. *)
From Coq Require Import Reals Lra Epsilon FunctionalExtensionality.
From mathcomp Require Import all_ssreflect all_algebra.
Set Implicit Arguments.
Unset Strict Implicit.
Unset Printing Implicit Defensive.

Local Open Scope R_scope.

Definition eqr (a b : R) : bool := if Req_EM_T a b then true else false.
Lemma eqrP : Equality.axiom eqr.
Proof. by move=> a b; rewrite /eqr; case: (Req_EM_T a b) => h; constructor. Qed.
Definition R_eqMixin := EqMixin eqrP.
Canonical R_eqType := Eval hnf in EqType R R_eqMixin.

Definition pickR (P : pred R) (k : nat) : option R :=
  let x := epsilon (inhabits 0) (fun y => P y) in if P x then Some x else None.
Lemma pickR_some P k x : pickR P k = Some x -> P x.
Proof. by rewrite /pickR; case: (boolP (P _)) => // h [<-]. Qed.
Lemma pickR_ex (P : pred R) : (exists x, P x) -> exists k, pickR P k.
Proof. by move=> h; exists 0%N; rewrite /pickR (epsilon_spec (inhabits 0) (fun y => P y) h). Qed.
Lemma pickR_ext (P Q : pred R) : P =1 Q -> pickR P =1 pickR Q.
Proof. by move=> h k; rewrite (functional_extensionality P Q h). Qed.
Definition R_choiceMixin : choiceMixin R := Choice.Mixin pickR_some pickR_ex pickR_ext.
Canonical R_choiceType := Eval hnf in ChoiceType R R_choiceMixin.

Lemma RplusA : associative Rplus. Proof. by move=> a b c; ring. Qed.
Lemma RplusC : commutative Rplus. Proof. by move=> a b; ring. Qed.
Lemma Rplus0 : left_id 0 Rplus. Proof. by move=> a; ring. Qed.
Lemma RplusN : left_inverse 0 Ropp Rplus. Proof. by move=> a; ring. Qed.
Definition R_zmodMixin := ZmodMixin RplusA RplusC Rplus0 RplusN.
Canonical R_zmodType := Eval hnf in ZmodType R R_zmodMixin.

Lemma RmultA : associative Rmult. Proof. by move=> a b c; ring. Qed.
Lemma RmultC : commutative Rmult. Proof. by move=> a b; ring. Qed.
Lemma Rmult1 : left_id 1 Rmult. Proof. by move=> a; ring. Qed.
Lemma RmultD : left_distributive Rmult Rplus. Proof. by move=> a b c; ring. Qed.
Lemma R1_neq0 : (1 : R) != 0 :> R.
Proof. by apply/eqP; exact: R1_neq_R0. Qed.
Definition R_ringMixin := ComRingMixin RmultA RmultC Rmult1 RmultD R1_neq0.
Canonical R_ringType := Eval hnf in RingType R R_ringMixin.
Canonical R_comRingType := Eval hnf in ComRingType R RmultC.

(** Division by zero gives zero, as in the field library. *)
Definition Rinvx (a : R) : R := if a == 0 then 0 else / a.
Lemma RmultV (a : R) : a != 0 -> Rinvx a * a = 1.
Proof. by rewrite /Rinvx; move=> h; rewrite (negbTE h); apply: Rinv_l; apply/eqP. Qed.
Lemma Rinv0 : Rinvx 0 = 0. Proof. by rewrite /Rinvx eqxx. Qed.
Definition R_unitMixin := FieldUnitMixin RmultV Rinv0.
Canonical R_unitRingType := Eval hnf in UnitRingType R R_unitMixin.
Canonical R_comUnitRingType := Eval hnf in [comUnitRingType of R].
Lemma R_fieldMixin : GRing.Field.mixin_of [unitRingType of R].
Proof. by move=> a ha. Qed.
Definition R_idomainMixin := FieldIdomainMixin R_fieldMixin.
Canonical R_idomainType := Eval hnf in IdomainType R R_idomainMixin.
Canonical R_fieldType := Eval hnf in FieldType R R_fieldMixin.

Definition Rleb (a b : R) : bool := if Rle_dec a b then true else false.
Definition Rltb (a b : R) : bool := if Rlt_dec a b then true else false.
Lemma RlebP a b : reflect (a <= b) (Rleb a b).
Proof. by rewrite /Rleb; case: (Rle_dec a b) => h; constructor. Qed.
Lemma RltbP a b : reflect (a < b) (Rltb a b).
Proof. by rewrite /Rltb; case: (Rlt_dec a b) => h; constructor. Qed.

Lemma le0_addR a b : Rleb 0 a -> Rleb 0 b -> Rleb 0 (a + b).
Proof. by move=> /RlebP h1 /RlebP h2; apply/RlebP; lra. Qed.
Lemma le0_mulR a b : Rleb 0 a -> Rleb 0 b -> Rleb 0 (a * b).
Proof. by move=> /RlebP h1 /RlebP h2; apply/RlebP; exact: Rmult_le_pos. Qed.
Lemma le0_antiR a : Rleb 0 a -> Rleb a 0 -> a = 0.
Proof. by move=> /RlebP h1 /RlebP h2; lra. Qed.
Lemma sub_ge0R a b : Rleb 0 (b - a) = Rleb a b.
Proof. by apply/RlebP/RlebP; lra. Qed.
Lemma le0_totalR a : Rleb 0 a || Rleb a 0.
Proof. by apply/orP; case: (Rle_dec 0 a) => h; [left|right]; apply/RlebP; lra. Qed.
Lemma ge0_normR a : Rleb 0 a -> Rabs a = a.
Proof. by move=> /RlebP h; apply: Rabs_pos_eq. Qed.
Lemma lt_defR a b : Rltb a b = (b != a) && Rleb a b.
Proof.
apply/RltbP/andP => [h|[/eqP h1 /RlebP h2]]; last by lra.
by split; [apply/eqP; lra|apply/RlebP; lra].
Qed.
Definition R_leMixin : realLeMixin R_idomainType :=
  RealLeMixin le0_addR le0_mulR le0_antiR sub_ge0R le0_totalR Rabs_Ropp ge0_normR lt_defR.
Canonical R_porderType := POrderType ring_display R R_leMixin.
Canonical R_latticeType := LatticeType R R_leMixin.
Canonical R_distrLatticeType := DistrLatticeType R R_leMixin.
Lemma Rleb_total : total Rleb.
Proof. by move=> a b; apply/orP; case: (Rle_dec a b) => h; [left|right]; apply/RlebP; lra. Qed.
Canonical R_orderType := OrderType R Rleb_total.
Canonical R_numDomainType := NumDomainType R R_leMixin.
Canonical R_normedZmodType := NormedZmodType R R R_leMixin.
Canonical R_numFieldType := [numFieldType of R].
Canonical R_realDomainType := [realDomainType of R].
Canonical R_realFieldType := [realFieldType of R].

(** The field operations are those of the standard library. *)
Local Open Scope ring_scope.
Lemma R_ltP (a b : R_realFieldType) : reflect (Rlt a b) (a < b).
Proof. exact: RltbP. Qed.
Lemma R_leP (a b : R_realFieldType) : reflect (Rle a b) (a <= b).
Proof. exact: RlebP. Qed.
Lemma R_invE (a : R_realFieldType) : a != 0 -> a^-1 = Rinv a.
Proof. by move=> h; rewrite /GRing.inv /= /Rinvx -[a == 0]/(a == 0 :> R_realFieldType) (negbTE h). Qed.

(** The laws of the real square root, exponential and logarithm. *)
Lemma R_sqrtK (a : R_realFieldType) : 0 <= a -> (sqrt a : R_realFieldType) ^+ 2 = a.
Proof. by move=> /R_leP h; rewrite GRing.expr2; exact: sqrt_sqrt. Qed.
Lemma R_expD (a b : R_realFieldType) : exp (a + b) = exp a * exp b.
Proof. exact: exp_plus. Qed.
Lemma R_exp_neq0 (a : R_realFieldType) : (exp a : R_realFieldType) != 0.
Proof. by apply/eqP; apply: Rgt_not_eq; exact: exp_pos. Qed.
Lemma R_lnM (a b : R_realFieldType) : 0 < a -> 0 < b -> ln (a * b) = ln a + ln b.
Proof. by move=> /R_ltP ha /R_ltP hb; exact: ln_mult. Qed.
