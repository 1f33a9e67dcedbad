(** * Lemmas for the process noise matrices (exact arithmetic over any real field). *)
From mathcomp Require Import all_ssreflect all_algebra.
From Verif Require Import Ops Exact Spec ZmodTac FieldTac LinAlg Model_KF Model_Common Proof_Common Prop_Kin Proof_Disc.
Set Implicit Arguments.
Unset Strict Implicit.
Unset Printing Implicit Defensive.
Import Order.TTheory GRing.Theory Num.Theory.
Local Open Scope ring_scope.

(** q = dt * sum_j u_j u_j^T / (2j+1): the integral of a square, by Legendre polynomials, so PSD
    for dt >= 0. *)
Section Psd.
Variables (F : realFieldType) (fsqrt fexp flog : F -> F).
Notation EO := (exactO fsqrt fexp flog).
Add Field fldP : (fF_theory F).
Notation Qc order dt := (np_array (o := EO) order.+1 order.+1 (@q_cont_table EO order.+1 dt) : 'M[F]_(order.+1)).

Definition colv n (l : seq F) : 'cV[F]_n := \col_i l`_i.
(** Shifted Legendre coefficients of s^a/a! on [0, dt], a = order - r; row r. *)
Definition leg (order : nat) (dt : F) (j : nat) : seq F :=
  let c a := nth 0 (nth [::] [:: [:: 1];
      [:: dt / 2%:R; dt / 2%:R];
      [:: dt ^+ 2 / 6%:R; dt ^+ 2 / 4%:R; dt ^+ 2 / 12%:R];
      [:: dt ^+ 3 / 24%:R; dt ^+ 3 * 3%:R / 40%:R; dt ^+ 3 / 24%:R; dt ^+ 3 / 120%:R]] a) j in
  [seq c (order - r)%N | r <- iota 0 order.+1].
Lemma cont_legendre order (dt : F) : (1 <= order <= 3)%N ->
  Qc order dt = dt *: (\sum_(j < 4) (j.*2.+1%:R)^-1 *: (colv order.+1 (leg order dt j) *m (colv order.+1 (leg order dt j))^T)).
Proof.
move=> ho; have Et := fun r r' => @cont_table F fsqrt fexp flog order dt r r' ho; move: (Qc _ _) Et => Q EQ.
apply/matrixP => i j; rewrite EQ mxE summxE !big_ord_recl big_ord0 !mxE !big_ord1 !mxE /qc /leg.
case: order i j ho {Q EQ} => [|[|[|[|order]]]] // i j _.
- case: i => [[|[|r]] hr] //; case: j => [[|[|r']] hr'] //=; toF; field; posF.
- case: i => [[|[|[|r]]] hr] //; case: j => [[|[|[|r']]] hr'] //=; toF; field; posF.
- case: i => [[|[|[|[|r]]]] hr] //; case: j => [[|[|[|[|r']]]] hr'] //=; toF; field; posF.
Qed.
Lemma cont_psd order (dt : F) : (1 <= order <= 3)%N -> 0 <= dt -> psd (Qc order dt).
Proof.
move=> ho hd; rewrite cont_legendre //; apply: psdZ => //; rewrite !big_ord_recl big_ord0 addr0.
have p j : psd ((j.*2.+1%:R)^-1 *: (colv order.+1 (leg order dt j) *m (colv order.+1 (leg order dt j))^T)).
  by apply: psdZ; [rewrite invr_ge0 ler0n|exact: psd_gram].
do 3 (apply: psdD; first exact: p); exact: p.
Qed.
End Psd.
