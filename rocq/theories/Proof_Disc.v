(** * Lemmas for the process noise matrices (exact arithmetic over any real field). *)
From mathcomp Require Import all_ssreflect all_algebra.
From Verif Require Import Ops Exact Spec ZmodTac FieldTac LinAlg Model_KF Model_Common Proof_Common Prop_Kin.
Set Implicit Arguments.
Unset Strict Implicit.
Unset Printing Implicit Defensive.
Import Order.TTheory GRing.Theory Num.Theory.
Local Open Scope ring_scope.

(** Inverse of [idx]: dimension and derivative of a state index. *)
Definition dm (b : bool) (k n i : nat) : nat := if b then (i %/ n.+1)%N else (i %% k)%N.
Definition rk (b : bool) (k n i : nat) : nat := if b then (i %% n.+1)%N else (i %/ k)%N.

Section Idx.
Variables (b : bool) (k n : nat).
Lemma dmK d r : (d < k)%N -> (r <= n)%N -> dm b k n (idx b k n d r) = d.
Proof.
move=> hd hr; rewrite /dm /idx; case: b; first by rewrite divnMDl // divn_small // addn0.
by rewrite modnMDl modn_small.
Qed.
Lemma rkK d r : (d < k)%N -> (r <= n)%N -> rk b k n (idx b k n d r) = r.
Proof.
move=> hd hr; rewrite /rk /idx; case: b; first by rewrite modnMDl modn_small.
by rewrite divnMDl ?divn_small ?addn0 //; case: k hd.
Qed.
Lemma idxK i : (i < n.+1 * k)%N -> [/\ (dm b k n i < k)%N, (rk b k n i <= n)%N & idx b k n (dm b k n i) (rk b k n i) = i].
Proof.
have [-> | k0] := posnP k; first by rewrite muln0.
move=> hi; rewrite /dm /rk /idx; case: b; split.
- by rewrite ltn_divLR // mulnC.
- by have := ltn_pmod i (ltn0Sn n).
- by rewrite -divn_eq.
- by rewrite ltn_mod.
- by have : (i %/ k < n.+1)%N by rewrite ltn_divLR.
- by rewrite -divn_eq.
Qed.
End Idx.

Section Blk.
Variables (F : realFieldType) (b : bool) (k n : nat).
(** One copy of [A] per dimension. *)
Definition blk (A : 'M[F]_(n.+1)) : 'M[F]_(n.+1 * k) :=
  \matrix_(i, j) if dm b k n i == dm b k n j then mx_get A (rk b k n i) (rk b k n j) else 0.

Lemma blk_get A d d' r r' : (d < k)%N -> (d' < k)%N -> (r <= n)%N -> (r' <= n)%N ->
  mx_get (blk A) (idx b k n d r) (idx b k n d' r') = if d == d' then mx_get A r r' else 0.
Proof.
move=> hd hd' hr hr'; rewrite (mx_getP _ (idx_bound b hd hr) (idx_bound b hd' hr')) mxE /=.
by rewrite !dmK // !rkK.
Qed.
Lemma blkP A (B : 'M[F]_(n.+1 * k)) :
  (forall d d' r r', (d < k)%N -> (d' < k)%N -> (r <= n)%N -> (r' <= n)%N ->
     mx_get B (idx b k n d r) (idx b k n d' r') = if d == d' then mx_get A r r' else 0) -> B = blk A.
Proof.
move=> h; apply/matrixP => i j; rewrite -!mx_getE.
have [h1 h2 <-] := idxK b (ltn_ord i); have [h3 h4 <-] := idxK b (ltn_ord j).
by rewrite h // blk_get.
Qed.
Lemma blkM A B : blk A *m blk B = blk (A *m B).
Proof.
apply: blkP => d d' r r' hd hd' hr hr'; rewrite mx_getM; try exact: idx_bound.
rewrite (sum_idx2 (fun c => mx_get (blk A) (idx b k n d r) c * mx_get (blk B) c (idx b k n d' r')) b).
rewrite (bigD1 (Ordinal hd)) //= [X in _ + X]big1 ?addr0; last first.
  move=> d2 nd; rewrite big1 // => s _; rewrite blk_get //; last by rewrite -ltnS.
  by case: eqP => [e|_]; [case/eqP: nd; apply: val_inj|rewrite mul0r].
case: eqP => [<-|/eqP nd]; last first.
  by rewrite big1 // => s _; rewrite [mx_get (blk B) _ _]blk_get ?(negbTE nd) ?mulr0 // -ltnS.
by rewrite mx_getM //; apply: eq_bigr => s _; rewrite !blk_get ?eqxx // -ltnS.
Qed.
Lemma mx_getT p q (A : 'M[F]_(p,q)) i j : mx_get A^T i j = mx_get A j i.
Proof.
rewrite /mx_get; case: (insub i : option 'I_q) => [i'|]; case: (insub j : option 'I_p) => [j'|] //; by rewrite mxE.
Qed.
Lemma mx_getD p q (A B : 'M[F]_(p,q)) i j : mx_get (A + B) i j = mx_get A i j + mx_get B i j.
Proof.
rewrite /mx_get; case: (insub i : option 'I_p) => [i'|]; case: (insub j : option 'I_q) => [j'|]; rewrite ?mxE ?addr0 //.
Qed.
Lemma mx_getZ p q a (A : 'M[F]_(p,q)) i j : mx_get (a *: A) i j = a * mx_get A i j.
Proof.
rewrite /mx_get; case: (insub i : option 'I_p) => [i'|]; case: (insub j : option 'I_q) => [j'|]; rewrite ?mxE ?mulr0 //.
Qed.
Lemma blkT A : (blk A)^T = blk A^T.
Proof. by apply: blkP => *; rewrite !mx_getT blk_get // eq_sym. Qed.
Lemma blkD A B : blk A + blk B = blk (A + B).
Proof. by apply: blkP => *; rewrite !mx_getD !blk_get //; case: ifP => // _; rewrite addr0. Qed.
Lemma blkZ a A : a *: blk A = blk (a *: A).
Proof. by apply: blkP => *; rewrite !mx_getZ !blk_get //; case: ifP => // _; rewrite mulr0. Qed.
Lemma blk_psd A : psd A -> psd (blk A).
Proof.
move=> pA; split; first exact: (etrans (blkT A) (congr1 blk (psd_sym pA))).
move=> v; pose vd (d : nat) : 'cV[F]_(n.+1) := \col_r mx_get v (idx b k n d r) 0.
have -> : qf (blk A) v = \sum_(d < k) qf A (vd d); last by apply: sumr_ge0 => d _; exact: (proj2 pA).
rewrite /qf -[in LHS](mx_getE _ 0 0) -mulmxA mx_getM //.
rewrite (sum_idx2 (fun c => mx_get v^T 0 c * mx_get (blk A *m v) c 0) b).
apply: eq_bigr => d _; rewrite -mulmxA mxE; apply: eq_bigr => r _.
have hr : (r <= n)%N by rewrite -ltnS.
rewrite mx_getT mxE mxE; congr (_ * _); rewrite mx_getM //; last exact: idx_bound.
rewrite (sum_idx2 (fun c => mx_get (blk A) (idx b k n d r) c * mx_get v c 0) b).
rewrite (bigD1 d) //= [X in _ + X]big1 ?addr0; last first.
  move=> d2 nd; rewrite big1 // => s _; rewrite blk_get //; last by rewrite -ltnS.
  by case: eqP => [e|_]; [case/eqP: nd; apply: val_inj|rewrite mul0r].
rewrite mxE; apply: eq_bigr => s _; rewrite blk_get ?eqxx ?mx_getE ?mxE //; by rewrite -ltnS.
Qed.
End Blk.

Section Build.
Variables (F : realFieldType) (fsqrt fexp flog : F -> F).
Notation EO := (exactO fsqrt fexp flog).

Lemma layout_blk n k (Q : 'M[F]_(n.+1)) (b : bool) :
  (if b then block_diag (o := EO) k Q else order_by_derivative (o := EO) k Q) = blk b k Q.
Proof.
apply: blkP => d d' r r' hd hd' hr hr'.
have [Hd Hd' Hr Hr'] : [/\ (d < k)%coq_nat, (d' < k)%coq_nat, (r < n.+1)%coq_nat & (r' < n.+1)%coq_nat].
  by split; apply/ssrnat.ltP.
case: b.
- have e := block_diag_get (@exact_get_laws F fsqrt fexp flog) (Q : M EO n.+1 n.+1) Hd Hd' Hr Hr'.
  by apply: (etrans e); rewrite eqbE.
- have e := fill_blocks_get (@exact_get_laws F fsqrt fexp flog) (Q : M EO n.+1 n.+1) (mzeros (n.+1 * k) (n.+1 * k)) Hd Hd' Hr Hr'.
  apply: (etrans e); rewrite eqbE; by case: (d == d'); rewrite /= ?mulr1 ?mulr0.
Qed.

Lemma kin_F_blk dim order dim_z l (dt : F) b (k : kf EO (order.+1 * dim) dim_z l) :
  kf_F (@kinematic_kf EO dim order dim_z l dt b k) = blk b dim (kst (o := EO) order dt : 'M[F]_(order.+1)).
Proof.
apply: blkP => d d' r r' hd hd' hr hr'; rewrite kin_F //.
have h : (r < order.+1)%N by []. have h' : (r' < order.+1)%N by [].
by rewrite (mx_getP _ h h') kstE.
Qed.
End Build.

(** ** C41.  The noise gain: an acceleration (dim 2, 3) or a jerk (dim 4) held constant over the
    step, integrated down to derivative r: dt^(k-r)/(k-r)!. *)
Definition gain (F : realFieldType) (dim : nat) (dt : F) (r : nat) : F :=
  let k := maxn 2 dim.-1 in dt ^+ (k - r) / ((k - r)`!)%:R.

Section Tab.
Variables (F : realFieldType) (fsqrt fexp flog : F -> F).
Notation EO := (exactO fsqrt fexp flog).
Add Field fldT : (fF_theory F).

Lemma disc_table order (dt : F) (r r' : 'I_(order.+1)) : (1 <= order <= 3)%N ->
  (np_array (o := EO) order.+1 order.+1 (@q_disc_table EO order.+1 dt) : 'M[F]_(order.+1)) r r' =
  gain order.+1 dt r * gain order.+1 dt r'.
Proof.
rewrite /gain mxE; case: order r r' => [|[|[|[|order]]]] // r r' _.
- case: r => [[|[|r]] hr] //; case: r' => [[|[|r']] hr'] //=; toF; field; posF.
- case: r => [[|[|[|r]]] hr] //; case: r' => [[|[|[|r']]] hr'] //=; toF; field; posF.
- case: r => [[|[|[|[|r]]]] hr] //; case: r' => [[|[|[|[|r']]]] hr'] //=; toF; field; posF.
Qed.
End Tab.

(** ** C42.  Entry (r, r') of the continuous white noise matrix: the integral over [0, dt] of
    s^a/a! * s^b/b! with a = order - r, b = order - r' ([C42_is_integral] in Prop_Disc_R.v). *)
Definition qc (F : realFieldType) (order : nat) (dt : F) (r r' : nat) : F :=
  let a := (order - r)%N in let b := (order - r')%N in
  dt ^+ (a + b).+1 / ((a`! * b`! * (a + b).+1)%N)%:R.

Section Cont.
Variables (F : realFieldType) (fsqrt fexp flog : F -> F).
Notation EO := (exactO fsqrt fexp flog).
Add Field fldC : (fF_theory F).
Notation Qc order dt := (np_array (o := EO) order.+1 order.+1 (@q_cont_table EO order.+1 dt) : 'M[F]_(order.+1)).

Lemma cont_table order (dt : F) (r r' : 'I_(order.+1)) : (1 <= order <= 3)%N -> Qc order dt r r' = qc order dt r r'.
Proof.
rewrite /qc mxE; case: order r r' => [|[|[|[|order]]]] // r r' _.
- case: r => [[|[|r]] hr] //; case: r' => [[|[|r']] hr'] //=; toF; field; posF.
- case: r => [[|[|[|r]]] hr] //; case: r' => [[|[|[|r']]] hr'] //=; toF; field; posF.
- case: r => [[|[|[|[|r]]]] hr] //; case: r' => [[|[|[|[|r']]]] hr'] //=; toF; field; posF.
Qed.

Lemma cont_compose order (s t : F) : (1 <= order <= 3)%N ->
  Qc order (s + t) = (kst (o := EO) order t : 'M[F]_(order.+1)) *m Qc order s *m (kst (o := EO) order t : 'M[F]_(order.+1))^T + Qc order t.
Proof.
move=> ho; have Ek := kstE fsqrt fexp flog (order := order) t.
have Est := fun r r' => cont_table (s + t) r r' ho; have Es := fun r r' => cont_table s r r' ho; have Et := fun r r' => cont_table t r r' ho.
move: (kst (o := EO) order t) Ek (Qc order (s + t)) (Qc order s) (Qc order t) Est Es Et => A EA B C D EB EC ED.
apply/matrixP => i j; rewrite EB addmxE ED mxE.
under eq_bigr => c _. rewrite mxE; under eq_bigr => e _. rewrite EA EC; over. rewrite mxE EA; over.
move=> {A EA B C D EB EC ED}.
rewrite /qc /taylor; case: order i j ho => [|[|[|[|order]]]] // i j _.
- case: i => [[|[|r]] hr] //; case: j => [[|[|r']] hr'] //=; rewrite !big_ord_recl !big_ord0 /=; toF; field; posF.
- case: i => [[|[|[|r]]] hr] //; case: j => [[|[|[|r']]] hr'] //=; rewrite !big_ord_recl !big_ord0 /=; toF; field; posF.
- case: i => [[|[|[|[|r]]]] hr] //; case: j => [[|[|[|[|r']]]] hr'] //=; rewrite !big_ord_recl !big_ord0 /=; toF; field; posF.
Qed.
End Cont.
