(** * The standard [ring] / [field] tactics over mathcomp real fields.

    mathcomp's operations are wrapped into constants with one fixed type path, so that the
    syntactic reification of [field] sees them.  Use: in a section with [F : realFieldType],
    [Add Field fld : (fF_theory F).], then [toF; field; posF]. *)
From Coq Require Export Field.
From Coq Require Import Ring_theory Field_theory PArith.
From mathcomp Require Import all_ssreflect all_algebra.
Set Implicit Arguments.
Unset Strict Implicit.
Unset Printing Implicit Defensive.
Import Order.TTheory GRing.Theory Num.Theory.
Local Open Scope ring_scope.

Definition fadd (F : realFieldType) (x y : F) : F := x + y.
Definition fmul (F : realFieldType) (x y : F) : F := x * y.
Definition fopp (F : realFieldType) (x : F) : F := - x.
Definition finv (F : realFieldType) (x : F) : F := x^-1.
Definition fone (F : realFieldType) : F := 1.
Definition fzero (F : realFieldType) : F := 0.
Definition fsub (F : realFieldType) (x y : F) : F := fadd x (fopp y).
Definition fdiv (F : realFieldType) (x y : F) : F := fmul x (finv y).
Fixpoint fpos (F : realFieldType) (p : positive) : F :=
  match p with
  | xH => fone F
  | xO p => fmul (fadd (fone F) (fone F)) (fpos F p)
  | xI p => fadd (fone F) (fmul (fadd (fone F) (fone F)) (fpos F p))
  end.
Definition fnat (F : realFieldType) (n : nat) : F := match n with O => fzero F | S _ => fpos F (Pos.of_nat n) end.
Fixpoint fpow (F : realFieldType) (x : F) (n : nat) : F := match n with O => fone F | S k => fmul x (fpow x k) end.

Section T.
Variable F : realFieldType.
Implicit Types x y : F.
Lemma addF x y : x + y = fadd x y. Proof. by []. Qed.
Lemma mulF x y : x * y = fmul x y. Proof. by []. Qed.
Lemma oppF x : - x = fopp x. Proof. by []. Qed.
Lemma invF x : x^-1 = finv x. Proof. by []. Qed.
Lemma oneF : 1 = fone F. Proof. by []. Qed.
Lemma zeroF : 0 = fzero F. Proof. by []. Qed.
Lemma fposE p : fpos F p = (Pos.to_nat p)%:R.
Proof.
elim: p => [p IH|p IH|] //=; rewrite IH /fadd /fmul /fone.
- by rewrite Pnat.Pos2Nat.inj_xI mulrS multE natrM mulr2n.
- by rewrite Pnat.Pos2Nat.inj_xO multE natrM mulr2n.
Qed.
Lemma natF n : n%:R = fnat F n.
Proof. by case: n => // n; rewrite /fnat fposE Pnat.Nat2Pos.id. Qed.
Lemma expF x n : x ^+ n = fpow x n.
Proof. by elim: n => // n IH; rewrite exprS IH. Qed.
Lemma muln2F x : x *+ 2 = fadd x x. Proof. by rewrite mulr2n. Qed.

Lemma fF_theory : field_theory (fzero F) (fone F) (@fadd F) (@fmul F) (@fsub F) (@fopp F) (@fdiv F) (@finv F) eq.
Proof.
split => //; [split => //| |].
- exact: add0r.
- exact: addrC.
- exact: addrA.
- exact: mul1r.
- exact: mulrC.
- exact: mulrA.
- exact: mulrDl.
- exact: subrr.
- exact/eqP/oner_neq0.
- move=> x /eqP h; exact: mulVf.
Qed.
Lemma fadd_pos x y : 0 < x -> 0 < y -> 0 < fadd x y. Proof. exact: addr_gt0. Qed.
Lemma fmul_pos x y : 0 < x -> 0 < y -> 0 < fmul x y. Proof. exact: mulr_gt0. Qed.
Lemma fone_pos : 0 < fone F. Proof. exact: ltr01. Qed.
Lemma f_neq0 x : 0 < x -> x <> fzero F. Proof. by move=> h; apply/eqP; rewrite gt_eqF. Qed.
End T.

Ltac natc := repeat match goal with
  | |- context [@fpow ?F ?x ?n] =>
      let n' := eval vm_compute in n in
      tryif constr_eq n n' then fail else change (@fpow F x n) with (@fpow F x n')
  | |- context [fnat ?F ?n] =>
      let n' := eval vm_compute in n in
      tryif constr_eq n n' then fail else change (fnat F n) with (fnat F n')
  end.
Ltac toF := rewrite ?(natF, expF, muln2F, addF, mulF, oppF, invF, oneF, zeroF); natc;
  cbn [fnat fpos fpow Pos.of_nat Pos.succ];
  let go F := match goal with |- @eq _ ?a ?b => change (@eq (Num.RealField.sort F) a b) end in
  match goal with
  | |- context [@fadd ?F _ _] => go F
  | |- context [@fmul ?F _ _] => go F
  | |- context [@fopp ?F _] => go F
  | |- context [@finv ?F _] => go F
  | |- context [fone ?F] => go F
  end.
Ltac posF1 := apply: f_neq0; repeat first [exact: fone_pos | assumption | apply: fadd_pos | apply: fmul_pos].
Ltac posF := repeat match goal with |- _ /\ _ => split end; posF1.

Section Test.
Variable F : realFieldType.
Add Field fld : (fF_theory F).
Goal forall a b : F, a / 252%:R + b / 36%:R = (a + b * 7%:R) / 252%:R.
Proof. move=> a b; toF; field; posF. Qed.
End Test.
