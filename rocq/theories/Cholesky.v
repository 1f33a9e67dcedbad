(** * Triangular square roots of positive semidefinite matrices exist (over a real closed field).
    Used only to show that the contracts assumed of external Cholesky and QR routines can be met. *)
From mathcomp Require Import all_ssreflect all_algebra.
From Verif Require Import Ops Exact Spec ZmodTac LinAlg.
Set Implicit Arguments.
Unset Strict Implicit.
Unset Printing Implicit Defensive.
Import Order.TTheory GRing.Theory Num.Theory.
Local Open Scope ring_scope.

(** [A i j = 0] below the diagonal. *)
Definition upper (F : ringType) p q (A : 'M[F]_(p, q)) : bool :=
  [forall i : 'I_p, [forall j : 'I_q, (j < i)%N ==> (A i j == 0)]].

Lemma upperP (F : ringType) p q (A : 'M[F]_(p, q)) :
  reflect (forall (i : 'I_p) (j : 'I_q), (j < i)%N -> A i j = 0) (upper A).
Proof.
apply: (iffP forallP) => h i; last by apply/forallP => j; apply/implyP => l; apply/eqP/h.
by move=> j l; apply/eqP; move/forallP/(_ j)/implyP: (h i); apply.
Qed.

Section Chol.
Variable F : rcfType.

Lemma psd_block_dr n1 n2 (A : 'M[F]_n1) B C (D : 'M[F]_n2) : psd (block_mx A B C D) -> psd D.
Proof.
move=> p; have -> : D = row_mx 0 1%:M *m block_mx A B C D *m (row_mx 0 1%:M)^T.
  by rewrite tr_row_mx mul_row_block mul_row_col trmx0 trmx1 !mul0mx !mul1mx !add0r mulmx0 mulmx1 add0r.
exact: psd_congr.
Qed.
Lemma psd_block_ul n1 n2 (A : 'M[F]_n1) B C (D : 'M[F]_n2) : psd (block_mx A B C D) -> psd A.
Proof.
move=> p; have -> : A = row_mx 1%:M 0 *m block_mx A B C D *m (row_mx 1%:M 0)^T.
  by rewrite tr_row_mx mul_row_block mul_row_col trmx0 trmx1 !mul0mx !mul1mx !addr0 mulmx0 mulmx1 addr0.
exact: psd_congr.
Qed.
Lemma psd_block_sym n1 n2 (A : 'M[F]_n1) B C (D : 'M[F]_n2) : psd (block_mx A B C D) -> B = C^T.
Proof. by move/psd_sym; rewrite tr_block_mx => /eq_block_mx [_ -> _ _]. Qed.

Lemma upper_block n1 n2 (A : 'M[F]_n1) B (D : 'M[F]_n2) : upper A -> upper D -> upper (block_mx A B 0 D).
Proof.
move=> /upperP uA /upperP uD; apply/upperP => i j.
rewrite /block_mx !mxE; case: splitP => i' ei; rewrite !mxE; case: splitP => j' ej; rewrite ei ej.
- exact: uA.
- by move=> l; have := ltn_ord i'; rewrite ltnNge (leq_trans (leq_addr _ _) (ltnW l)).
- by rewrite mxE.
- by rewrite ltn_add2l; exact: uD.
Qed.

Fixpoint chol (n : nat) : 'M[F]_n -> 'M[F]_n :=
  match n return 'M[F]_n -> 'M[F]_n with
  | 0 => fun A => A
  | n'.+1 => fun (A : 'M[F]_(1 + n')) =>
      let a := ulsubmx A 0 0 in
      if a == 0 then block_mx (0 : 'M[F]_1) 0 0 (chol (drsubmx A))
      else block_mx (Num.sqrt a)%:M ((Num.sqrt a)^-1 *: ursubmx A) 0
             (chol (drsubmx A - a^-1 *: (dlsubmx A *m (dlsubmx A)^T)))
  end.

Lemma cholP n (A : 'M[F]_n) : psd A -> ((chol A)^T *m chol A == A) && upper (chol A).
Proof.
elim: n A => [|n IH] A pA.
  by apply/andP; split; [apply/eqP; rewrite [LHS]flatmx0 [RHS]flatmx0|apply/upperP => -[]].
change 'M[F]_(1 + n) in A.
have eA := submxK A; set a := ulsubmx A in eA; set b := ursubmx A in eA; set c := dlsubmx A in eA; set D := drsubmx A in eA.
have pB : psd (block_mx a b c D) by rewrite eA.
have ebc := psd_block_sym pB.
have pa := psd_block_ul pB; have pD := psd_block_dr pB.
have a0 : 0 <= a 0 0.
  by have := proj2 pa 1%:M; rewrite /qf trmx1 mulmx1 mul1mx.
have ea : a = (a 0 0)%:M by rewrite -mx11_scalar.
rewrite [chol A]/= -/a -/b -/c -/D.
have [z|nz] := eqVneq (a 0 0) 0.
- have c0 : c = 0.
    have : block_mx a b c D *m col_mx 1%:M 0 = 0.
      apply: psd_ker => //.
      by rewrite /qf tr_col_mx trmx1 trmx0 mul_row_block mul_row_col !mul1mx !mul0mx !mulmx0 !addr0 mulmx1 z.
    by rewrite mul_block_col !mulmx1 !mulmx0 !addr0 -[0 in RHS](vsubmxK 0) !linear0 => /eq_col_mx [].
  have /andP [/eqP eU uU] := IH D pD; move: (chol D) eU uU => U eU uU.
  apply/andP; split; last by apply: (@upper_block 1 n) => //; apply/upperP => i j; rewrite mxE.
  suff e : (block_mx (0 : 'M[F]_1) 0 0 U)^T *m block_mx (0 : 'M[F]_1) 0 0 U = A by apply/eqP.
  rewrite tr_block_mx mulmx_block !trmx0 !mul0mx !mulmx0 !add0r eU -eA ea z ebc c0 trmx0.
  by rewrite -[0%:M]scalemx1 scale0r.
- have ap : 0 < a 0 0 by rewrite lt_neqAle eq_sym nz.
  pose D' := D - (a 0 0)^-1 *: (c *m c^T).
  have pD' : psd D'.
    have -> : D' = row_mx (- (a 0 0)^-1 *: c) 1%:M *m block_mx a b c D *m (row_mx (- (a 0 0)^-1 *: c) 1%:M)^T.
      rewrite tr_row_mx mul_row_block mul_row_col !mul1mx trmx1 mulmx1 ebc {2}ea -!scalemxAl.
      rewrite mul_mx_scalar scalerA mulNr mulVf // scaleN1r addNr mul0mx add0r /D'.
      by rewrite scaleNr addrC.
    exact: psd_congr.
  have /andP [/eqP eU uU] := IH D' pD'; rewrite -/D'; move: (chol D') eU uU => U eU uU.
  set u := Num.sqrt (a 0 0).
  have u0 : u != 0 by rewrite sqrtr_eq0 -ltNge.
  have uu : u * u = a 0 0 by rewrite -expr2 sqr_sqrtr.
  apply/andP; split; last first.
    by apply: (@upper_block 1 n) => //; apply/upperP => i j; rewrite (ord1 i).
  suff e : (block_mx (u%:M : 'M[F]_1) (u^-1 *: b) 0 U)^T *m block_mx (u%:M : 'M[F]_1) (u^-1 *: b) 0 U = A by apply/eqP.
  rewrite tr_block_mx mulmx_block !trmx0 !mul0mx !addr0 tr_scalar_mx -scalar_mxM uu -ea.
  rewrite mul_scalar_mx scalerA mulfV // scale1r mul_mx_scalar trmxZ scalerA mulfV // scale1r.
  rewrite -scalemxAl -scalemxAr scalerA -invfM uu eU /D' ebc trmxK [_ + (D - _)]addrC subrK -ebc.
  by rewrite -[RHS]eA mulmx0 addr0.
Qed.

Lemma cast_gram p p' q (e : p = p') (A : 'M[F]_(p, q)) : (castmx (e, erefl) A)^T *m castmx (e, erefl) A = A^T *m A.
Proof. by case: p' / e; rewrite castmx_id. Qed.

Lemma qr_exists p q (A : 'M[F]_(p, q)) :
  exists U : 'M[F]_(p, q), (q <= p)%N ==> (U^T *m U == A^T *m A) && upper U.
Proof.
case: (leqP q p) => [l|]; last by exists 0.
have pA : psd (A^T *m A) by rewrite -{2}[A]trmxK; exact: psd_gram.
have /andP [/eqP eU /upperP uU] := cholP pA; move: (chol _) eU uU => U eU uU.
have e : (q + (p - q) = p)%N by rewrite subnKC.
exists (castmx (e, erefl) (col_mx U 0)); apply/andP; split.
- by rewrite cast_gram tr_col_mx mul_row_col trmx0 mul0mx addr0 eU eqxx.
- apply/upperP => i j lij; rewrite castmxE /= cast_ord_id mxE; case: splitP => i' /= ei; last by rewrite mxE.
  by apply: uU; rewrite -ei.
Qed.

(** A QR routine (the R factor) and an (upper) Cholesky routine. *)
Definition some_qr p q (A : 'M[F]_(p, q)) : 'M[F]_(p, q) := xchoose (qr_exists A).
Lemma some_qrP p q (A : 'M[F]_(p, q)) : (q <= p)%N ->
  (some_qr A)^T *m some_qr A = A^T *m A /\ upper (some_qr A).
Proof. by move=> l; have /implyP/(_ l)/andP [/eqP e u] := xchooseP (qr_exists A); split. Qed.

End Chol.
