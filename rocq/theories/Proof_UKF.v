(** * Sigma points and the unscented transform in exact arithmetic. *)
From Coq Require Import ZArith QArith.
From mathcomp Require Import all_ssreflect all_algebra.
From Verif Require Import Ops Exact Spec ZmodTac FieldTac LinAlg Model_KF Model_Common Proof_Common Prop_Kin Model_UKF Spec_UKF Proof_UKF_get.
Set Implicit Arguments.
Unset Strict Implicit.
Unset Printing Implicit Defensive.
Import Order.TTheory GRing.Theory Num.Theory.
Local Close Scope Q_scope.
Local Close Scope Z_scope.
Local Open Scope ring_scope.

Section Sums.
Variable F : realFieldType.
Implicit Types (k n m : nat).

Lemma wmean_mx k n (w : 'rV[F]_k) (X : 'M[F]_(k, n)) : wmean w X = w *m X.
Proof. by rewrite /wmean mulmx_sum_row. Qed.

Lemma row_affine k n m (X : 'M[F]_(k, n)) (A : 'M[F]_(m, n)) b i : matrix.row i (affine_rows X A b) = matrix.row i X *m A^T + b.
Proof. by apply/rowP => j; rewrite !mxE. Qed.

Lemma wmean_affine k n m (w : 'rV[F]_k) (X : 'M[F]_(k, n)) (A : 'M[F]_(m, n)) b : wsum w = 1 ->
  wmean w (affine_rows X A b) = wmean w X *m A^T + b.
Proof.
move=> h; rewrite /wmean mulmx_suml.
transitivity (\sum_i (w 0 i *: matrix.row i X *m A^T + w 0 i *: b)).
  by apply: eq_bigr => i _; rewrite row_affine scalerDr scalemxAl.
by rewrite big_split /= -scaler_suml -/(wsum w) h scale1r.
Qed.

Lemma wxcov_affine k n m p q (w : 'rV[F]_k) (X : 'M[F]_(k, n)) x (Z : 'M[F]_(k, p)) z (A : 'M[F]_(m, n)) b (C : 'M[F]_(q, p)) d :
  wxcov w (affine_rows X A b) (x *m A^T + b) (affine_rows Z C d) (z *m C^T + d) = A *m wxcov w X x Z z *m C^T.
Proof.
rewrite /wxcov mulmx_sumr mulmx_suml; apply: eq_bigr => i _.
rewrite !row_affine -scalemxAr -scalemxAl; congr (_ *: _).
have e r s (Y : 'rV[F]_r) y (B : 'M[F]_(s, r)) c : Y *m B^T + c - (y *m B^T + c) = (Y - y) *m B^T.
  by rewrite mulmxBl opprD addrACA subrr addr0.
by rewrite !e trmx_mul trmxK !mulmxA.
Qed.

Lemma wcov_affine k n m (w : 'rV[F]_k) (X : 'M[F]_(k, n)) x (A : 'M[F]_(m, n)) b :
  wcov w (affine_rows X A b) (x *m A^T + b) = A *m wcov w X x *m A^T.
Proof. exact: wxcov_affine. Qed.

Lemma affine_id k n (X : 'M[F]_(k, n)) : affine_rows X 1%:M 0 = X.
Proof. by apply/row_matrixP => i; rewrite row_affine trmx1 mulmx1 addr0. Qed.

Lemma wxcov_lin k n m (w : 'rV[F]_k) (X : 'M[F]_(k, n)) x (A : 'M[F]_(m, n)) b :
  wxcov w X x (affine_rows X A b) (x *m A^T + b) = wcov w X x *m A^T.
Proof.
have := @wxcov_affine k n n n m w X x X x 1%:M 0 A b.
by rewrite affine_id trmx1 mulmx1 addr0 mul1mx.
Qed.

Lemma represents_affine k n m (wm wc : 'rV[F]_k) (X : 'M[F]_(k, n)) x P (A : 'M[F]_(m, n)) b :
  represents wm wc X x P -> represents wm wc (affine_rows X A b) (x *m A^T + b) (A *m P *m A^T).
Proof.
case=> h1 h2 h3; split=> //; first by rewrite wmean_affine // h2.
by rewrite wcov_affine h3.
Qed.
End Sums.

Lemma Ok_inj T (a b : T) : Ok a = Ok b -> a = b. Proof. by move=> []. Qed.

Section UT.
Variable F : realFieldType.
Variables (fsqrt fexp flog : F -> F).
Notation EO := (exactO fsqrt fexp flog).
Notation L := (@exact_get_laws F fsqrt fexp flog).

Lemma getE m n (A : 'M[F]_(m, n)) (i : 'I_m) (j : 'I_n) : mget (A : M EO m n) i j = A i j.
Proof. exact: mx_getE. Qed.
Lemma get0E n (A : 'M[F]_(1, n)) (j : 'I_n) : mget (A : M EO 1 n) O j = A 0 j.
Proof. exact: (mx_getE A 0 j). Qed.

Lemma mrowE m n (A : 'M[F]_(m, n)) (i : 'I_m) : mrow (o := EO) A i = matrix.row i A.
Proof. by apply/rowP => j; rewrite !mxE /= plusE addn0 mx_getE. Qed.
Lemma moppE m n (A : 'M[F]_(m, n)) : mopp (o := EO) A = - A.
Proof. by apply/matrixP => i j; rewrite !mxE /= mx_getE. Qed.

Lemma fold_sum k (T : zmodType) (f : nat -> T) : List.fold_left (fun P i => P + f i) (List.seq 0 k) 0 = \sum_(i < k) f i.
Proof.
elim: k => [|k IH]; first by rewrite big_ord0.
by rewrite List.seq_S List.fold_left_app IH big_ord_recr.
Qed.

Lemma np_diagE k (w : 'rV[F]_k) : np_diag (o := EO) w = diag_mx w.
Proof.
apply/matrixP => i j; rewrite !mxE /=.
by case: (Nat.eqb_spec i j) => [/val_inj ->|h]; [rewrite eqxx mulr1n -(mx_getE w 0 j) | case: eqP => // e; case: h; rewrite e].
Qed.
Lemma sub_rowE k n (A : 'M[F]_(k, n)) (x : 'rV[F]_n) : sub_row (o := EO) A x = \matrix_(i, j) (A i j - x 0 j).
Proof. by apply/matrixP => i j; rewrite !mxE /= mx_getE -(mx_getE x 0 j). Qed.

Lemma diag_sum k n m (w : 'rV[F]_k) (Y : 'M[F]_(k, n)) (Z : 'M[F]_(k, m)) :
  Y^T *m (diag_mx w *m Z) = \sum_i w 0 i *: ((matrix.row i Y)^T *m matrix.row i Z).
Proof.
apply/matrixP => a b; rewrite !mxE summxE; apply: eq_bigr => i _.
rewrite mul_diag_mx !mxE big_ord1 !mxE; by rewrite mulrCA.
Qed.

(** Both covariance paths of unscented_transform, with the default mean. *)
Lemma utE k n (sig : 'M[F]_(k, n)) (wm wc : 'rV[F]_k) (Q : option 'M[F]_n) mf rf :
  unscented_transform (o := EO) sig wm wc Q mf rf =
  let x : 'rV[F]_n := if mf is Some f then f sig wm else wmean wm sig in
  let P : 'M[F]_n := if rf is Some r then \sum_i wc 0 i *: ((r (matrix.row i sig) x)^T *m r (matrix.row i sig) x) else wcov wc sig x in
  (x, if Q is Some q then P + q else P).
Proof.
rewrite /unscented_transform /=.
have -> : (match mf with Some f => f sig wm | None => wm *m sig end) = (if mf is Some f then f sig wm else wmean wm sig).
  by case: mf => // ; rewrite wmean_mx.
set x := (if mf is Some f then f sig wm else _); congr (_, _); move: x => x.
have -> : match rf with
          | Some r => List.fold_left (fun P i => P + (mx_get wc 0 i : F) *: ((r (mrow (o := EO) sig i) x)^T *m r (mrow (o := EO) sig i) x)) (List.seq 0 k) 0
          | None => (sub_row (o := EO) sig x)^T *m (np_diag (o := EO) wc *m sub_row (o := EO) sig x)
          end = (if rf is Some r then \sum_i wc 0 i *: ((r (matrix.row i sig) x)^T *m r (matrix.row i sig) x) else wcov wc sig x); last by case: Q.
case: rf => [r|].
  rewrite (@fold_sum k _ (fun i => (mx_get wc 0 i : F) *: ((r (mrow (o := EO) sig i) x)^T *m r (mrow (o := EO) sig i) x))).
  by apply: eq_bigr => i _; rewrite mrowE -(mx_getE wc 0 i).
rewrite np_diagE diag_sum; apply: eq_bigr => i _.
suff -> : matrix.row i (sub_row (o := EO) sig x) = matrix.row i sig - x by [].
by rewrite sub_rowE; apply/rowP => j; rewrite !mxE.
Qed.

Lemma map_rowsE k p q (f : 'rV[F]_p -> 'rV[F]_q) (A : 'M[F]_(k, p)) out :
  map_rows (o := EO) f A out = \matrix_(i, j) f (matrix.row i A) 0 j.
Proof.
apply/matrixP => i j; rewrite mxE.
have := @map_rows_get EO L k p q f A out i j (elimT ssrnat.ltP (ltn_ord i)) (elimT ssrnat.ltP (ltn_ord j)).
by rewrite mrowE getE get0E.
Qed.
Lemma map_rows_affine k p q (A : 'M[F]_(q, p)) b (X : 'M[F]_(k, p)) out :
  map_rows (o := EO) (fun x : 'rV[F]_p => x *m A^T + b) X out = affine_rows X A b.
Proof. by rewrite map_rowsE; apply/matrixP => i j; rewrite !mxE. Qed.

(** Symmetric sigma points. *)
Section Sym.
Variables (n : nat) (c : F) (sqrt : 'M[F]_n -> option 'M[F]_n).
Hypothesis hs : sqrt_ok sqrt.

Lemma slice_all (x : 'rV[F]_n) : mslice (o := EO) x 0 0 1 n = x.
Proof. by apply/rowP => j; rewrite !mxE -(mx_getE x 0 j). Qed.

Lemma ltb (k : nat) (i : 'I_k) : lt i k. Proof. exact: elimT ssrnat.ltP (ltn_ord i). Qed.
Lemma weights0 k (w0 cw : F) : (weights (o := EO) k.+1 w0 cw : 'rV[F]_k.+1) 0 ord0 = w0.
Proof. have := @weights_get EO L k.+1 w0 cw _ (ltb ord0); by rewrite get0E. Qed.
Lemma weightsS k (w0 cw : F) (i : 'I_k) : (weights (o := EO) k.+1 w0 cw : 'rV[F]_k.+1) 0 (lift ord0 i) = cw.
Proof. have := @weights_get EO L k.+1 w0 cw _ (ltb (lift ord0 i)); by rewrite get0E. Qed.
Lemma weights_sum (w0 cw : F) : wsum (weights (o := EO) (S (n + n)) w0 cw : 'rV[F]_(n + n).+1) = w0 + cw *+ (n + n).
Proof.
rewrite /wsum big_ord_recl weights0; congr (_ + _).
by rewrite (eq_bigr (fun=> cw)) ?sumr_const ?card_ord // => i _; rewrite weightsS.
Qed.

Definition pt_ok (sub : M EO 1 n -> M EO 1 n -> M EO 1 n) (x : 'rV[F]_n) (U : 'M[F]_n) (sig : 'M[F]_((n + n).+1, n)) : Prop :=
  [/\ matrix.row ord0 sig = x, (forall i : 'I_n, matrix.row (lift ord0 (lshift n i)) sig = sub x (- matrix.row i U)) &
      (forall i : 'I_n, matrix.row (lift ord0 (rshift n i)) sig = sub x (matrix.row i U))].

Lemma eqb_refl (i : nat) : Nat.eqb i i. Proof. exact: Nat.eqb_refl. Qed.

Lemma sym_pointsP sub (x : 'rV[F]_n) (P : sm EO n) sig : sym_points (o := EO) c sqrt sub x P = Ok sig ->
  exists2 U, sqrt (c *: (sm_or (o := EO) (mzeros n n) (Some P))) = Some U & pt_ok sub x U sig.
Proof.
rewrite /sym_points eqb_refl slice_all; cbn [negb]; case e: (sqrt _) => [U|] // h.
exists U; first by rewrite -e.
have {h} <- := Ok_inj h.
set f := fun k => sub x (mopp (o := EO) (mrow (o := EO) U k)).
set g := fun k => sub x (mrow (o := EO) U k).
set s0 := mwrite (o := EO) _ _ _ _.
have E := @sym_loop_get EO L n f g s0 n.
set T := List.fold_left _ _ _ in E *.
have {}E (i : 'I_(n + n).+1) (j : 'I_n) := E i j (le_n n) (ltb i) (ltb j).
split=> [|i|i]; apply/rowP => j; rewrite mxE -getE E.
- have -> : Nat.leb (Nat.add n 1) (@ord0 (n + n)) = false by rewrite plusE addn1.
  rewrite -get0E; exact: (@row_write_get EO L _ _ (mzeros (S (n + n)) n) 0 (x : M EO 1 n) _ _ (ltb (@ord0 (n + n))) (ltb j)).
- have [-> ->] : (Nat.leb 1 (lift ord0 (lshift n i)) && Nat.ltb (lift ord0 (lshift n i)) (Nat.add n 1) = true) /\
    (Nat.sub (lift ord0 (lshift n i)) 1 = i :> nat).
    rewrite lift0 minusE subn1; split=> //; apply/andP; split=> //.
    by apply/Nat.ltb_lt; rewrite plusE addn1; apply/ssrnat.ltP; exact: ltn_ord i.
  by rewrite /f mrowE moppE get0E.
- have [-> -> ->] : [/\ (Nat.leb 1 (lift ord0 (rshift n i)) && Nat.ltb (lift ord0 (rshift n i)) (Nat.add n 1) = false),
    (Nat.leb (Nat.add n 1) (lift ord0 (rshift n i)) && Nat.ltb (lift ord0 (rshift n i)) (Nat.add (Nat.add n n) 1)) = true &
    (Nat.sub (Nat.sub (lift ord0 (rshift n i)) n) 1 = i :> nat)].
    rewrite lift0 !minusE !plusE !addn1 [nat_of_ord (rshift n i)]/=; split.
    + by apply/negbTE; rewrite negb_and; apply/orP; right; apply/negP => /Nat.ltb_lt /ssrnat.ltP; rewrite ltnS ltnNge leq_addr.
    + by apply/andP; split; [apply/Nat.leb_le/ssrnat.leP; rewrite ltnS leq_addr|apply/Nat.ltb_lt/ssrnat.ltP; rewrite ltnS ltn_add2l].
    + by rewrite subSn ?leq_addr // addKn subn1.
  by rewrite /g mrowE get0E.
Qed.

(** Weighted sums over symmetric points with the default subtraction. *)
Lemma sum_sym (V : zmodType) (f : 'I_(n + n).+1 -> V) :
  \sum_i f i = f ord0 + \sum_(i < n) (f (lift ord0 (lshift n i)) + f (lift ord0 (rshift n i))).
Proof. by rewrite big_ord_recl big_split_ord /= big_split. Qed.

Lemma sym_represents (x : 'rV[F]_n) (P : 'M[F]_n) U sig wm0 wc0 cw : U^T *m U = c *: P ->
  pt_ok (fun a b => a - b) x U sig -> cw *+ 2 * c = 1 -> wm0 + cw *+ (n + n) = 1 ->
  represents (weights (o := EO) (S (n + n)) wm0 cw : 'rV[F]_(n + n).+1) (weights (o := EO) (S (n + n)) wc0 cw : 'rV[F]_(n + n).+1) sig x P.
Proof.
move=> hU [h0 hl hr] hc h1; split; first by rewrite weights_sum.
- rewrite /wmean sum_sym weights0 h0.
  rewrite (eq_bigr (fun=> (cw *+ 2) *: x)) => [|i _].
    by rewrite sumr_const card_ord scalerMnl -scalerDl -mulrnA mul2n -addnn h1 scale1r.
  by rewrite !weightsS hl hr -scalerDr opprK addrACA addrN addr0 -mulr2n -scaler_nat scalerA mulr_natr.
- rewrite /wcov /wxcov sum_sym weights0 h0 subrr trmx0 mul0mx scaler0 add0r.
  rewrite (eq_bigr (fun i => (cw *+ 2) *: ((matrix.row i U)^T *m matrix.row i U))) => [|i _].
    rewrite -scaler_sumr.
    have -> : \sum_(i < n) (matrix.row i U)^T *m matrix.row i U = U^T *m U.
      rewrite -[X in _ = U^T *m X]mul1mx -diag_const_mx diag_sum; apply: eq_bigr => i _; by rewrite mxE scale1r.
    by rewrite hU scalerA hc scale1r.
  rewrite !weightsS hl hr opprK [x + _ - x]addrC addKr [x - _ - x]addrAC subrr add0r.
  by rewrite trmxN mulNmx mulmxN opprK -mulr2n scalerMnl.
Qed.
End Sym.

(** The simplex directions: rows orthogonal with squared length 1/lambda, each summing to zero. *)
Section Simplex.
Variable lam : F.
Hypothesis hl : 0 < lam.
Hypothesis hq : forall v, 0 <= v -> fsqrt v ^+ 2 = v.
Let G d i j : F := mget (istar (o := EO) lam d) i j.
Let a d : F := fsqrt (lam * d.+1%:R * (d.+1%:R + 1)).

Lemma ist1 j : (j < 2)%N -> G 1 0 j = (if j == 0%N then -1 else 1) / fsqrt (2%:R * lam).
Proof.
move=> hj; rewrite /G /istar (@get_fun EO L) //; try exact/ssrnat.ltP.
by rewrite eqbE; case: (j == 0%N).
Qed.
Lemma istS d i j : (i < d.+2)%N -> (j < d.+3)%N ->
  G d.+2 i j = if i == d.+1 then (if j == d.+2 then - d.+2%:R else 1) / a d.+1 else if j == d.+2 then 0 else G d.+1 i j.
Proof.
move=> /ssrnat.ltP hi /ssrnat.ltP hj; rewrite /G (@istar_get EO L) // !eqbE.
by case: (i == d.+1); case: (j == d.+2).
Qed.

Lemma a_sq d : a d ^+ 2 = lam * d.+1%:R * (d.+1%:R + 1).
Proof. by rewrite hq // !mulr_ge0 ?addr_ge0 ?ler0n ?ler01 // ltW. Qed.
Lemma a_neq0 d : a d != 0.
Proof.
suff: a d ^+ 2 != 0 by rewrite expf_eq0.
by rewrite a_sq gt_eqF // !mulr_gt0 ?addr_gt0 ?ltr0Sn ?ltr01.
Qed.
Lemma a0E : fsqrt (2%:R * lam) = a 0.
Proof. by rewrite /a mulr1 mulrC; congr (fsqrt (_ * _)); rewrite -[1 + 1]mulr2n. Qed.

Lemma ist_sum d i : (i < d.+1)%N -> \sum_(j < d.+2) G d.+1 i j = 0.
Proof.
elim: d i => [|d IH] i hi.
  by case: i hi => // _; rewrite !big_ord_recl big_ord0 !ist1 //= addr0 -mulrDl addNr mul0r.
rewrite big_ord_recr /= istS //.
have hj (j : 'I_d.+2) : (j < d.+3)%N by rewrite (ltn_trans (ltn_ord j)).
have nj (j : 'I_d.+2) : (nat_of_ord j == d.+2) = false by rewrite ltn_eqF ?ltn_ord.
case: eqP => [-> | /eqP ne]; rewrite eqxx.
  rewrite (eq_bigr (fun=> (a d.+1)^-1)) => [|j _].
    by rewrite sumr_const card_ord mulNr -[X in X - _]mulr_natl subrr.
  by rewrite istS // eqxx nj mul1r.
rewrite addr0 -[RHS](IH i); last by rewrite ltn_neqAle ne -ltnS.
by apply: eq_bigr => j _; rewrite istS // (negPf ne) nj.
Qed.

Lemma ist_dot d i i' : (i < d.+1)%N -> (i' < d.+1)%N -> \sum_(j < d.+2) G d.+1 i j * G d.+1 i' j = (i == i')%:R / lam.
Proof.
elim: d i i' => [|d IH] i i' hi hi'.
  case: i hi => // _; case: i' hi' => // _; rewrite !big_ord_recl big_ord0 !ist1 //= addr0 a0E.
  rewrite mulN1r mul1r mulrNN -mulr2n -expr2 exprVn a_sq mulr1 -[1 + 1]mulr2n.
  by rewrite invfM -[LHS]mulr_natr -mulrA mulVf ?pnatr_eq0 // mulr1 -[RHS]/(1 / lam) mul1r.
rewrite big_ord_recr /= !istS // !eqxx.
have hj (j : 'I_d.+2) : (j < d.+3)%N by rewrite (ltn_trans (ltn_ord j)).
have nj (j : 'I_d.+2) : (nat_of_ord j == d.+2) = false by rewrite ltn_eqF ?ltn_ord.
have lo k : (k < d.+2)%N -> k != d.+1 -> (k < d.+1)%N by move=> h1 h2; rewrite ltn_neqAle h2 -ltnS.
case: (eqVneq i d.+1) => [-> | ne]; case: (eqVneq i' d.+1) => [-> | ne'].
- rewrite (eq_bigr (fun=> (a d.+1)^-1 ^+ 2)) => [|j _]; last by rewrite !istS // !eqxx nj mul1r.
  rewrite sumr_const card_ord -expr2 exprMn -[X in X + _]mulr_natl -mulrDl exprVn a_sq sqrrN.
  have h1 : d.+2%:R * (d.+2%:R + 1) != 0 :> F by rewrite gt_eqF // mulr_gt0 ?addr_gt0 ?ltr01 ?ltr0Sn.
  have -> : d.+2%:R + d.+2%:R ^+ 2 = d.+2%:R * (d.+2%:R + 1) :> F by rewrite mulrDr mulr1 -expr2 addrC.
  by rewrite -[lam * _ * _]mulrA invfM mulrCA mulfV // mulr1 -[RHS]/(1 / lam) mul1r.
- rewrite mulr0 addr0 (eq_bigr (fun j : 'I_d.+2 => (a d.+1)^-1 * G d.+1 i' j)) => [|j _]; last by rewrite !istS // eqxx (negPf ne') nj mul1r.
  by rewrite -mulr_sumr ist_sum ?lo // mulr0 mul0r.
- rewrite mul0r addr0 (eq_bigr (fun j : 'I_d.+2 => G d.+1 i j * (a d.+1)^-1)) => [|j _]; last by rewrite !istS // eqxx (negPf ne) nj mul1r.
  by rewrite -mulr_suml ist_sum ?lo // mul0r (negPf ne) mul0r.
- rewrite mul0r addr0 -(IH i i') ?lo //; apply: eq_bigr => j _; by rewrite !istS // (negPf ne) (negPf ne') nj.
Qed.

Lemma istar_sum n : (istar (o := EO) lam n.+1 : 'M[F]_(n.+1, n.+2)) *m const_mx 1 = (0 : 'cV[F]_n.+1).
Proof.
apply/colP => i; rewrite !mxE -[RHS](ist_sum (ltn_ord i)); apply: eq_bigr => j _.
by rewrite mxE mulr1 /G getE.
Qed.
Lemma istar_gram n : (istar (o := EO) lam n.+1 : 'M[F]_(n.+1, n.+2)) *m (istar (o := EO) lam n.+1 : 'M[F]_(n.+1, n.+2))^T = (lam^-1)%:M.
Proof.
apply/matrixP => i j; rewrite !mxE.
transitivity ((nat_of_ord i == j)%:R / lam).
  rewrite -(ist_dot (ltn_ord i) (ltn_ord j)); apply: eq_bigr => k _; by rewrite mxE /G !getE.
by rewrite -[RHS]mulr_natl.
Qed.
End Simplex.
End UT.
