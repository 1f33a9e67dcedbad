(** * Linear algebra used by the proofs (no model content). *)
From mathcomp Require Import all_ssreflect all_algebra.
From Verif Require Import Spec ZmodTac.
Set Implicit Arguments.
Unset Strict Implicit.
Unset Printing Implicit Defensive.
Import Order.TTheory GRing.Theory Num.Theory.
Local Open Scope ring_scope.

Section LinAlg.
Variable F : realFieldType.

Lemma mx11P (A B : 'M[F]_1) : A 0 0 = B 0 0 -> A = B.
Proof. by move=> h; apply/matrixP => i j; rewrite !ord1. Qed.

Lemma tr11 (A : 'M[F]_1) : A^T = A.
Proof. by apply: mx11P; rewrite mxE. Qed.

Lemma mulmxACA m n p q r (A : 'M[F]_(m,n)) (B : 'M_(n,p)) (C : 'M_(p,q)) (D : 'M_(q,r)) :
  A *m B *m (C *m D) = A *m (B *m C) *m D.
Proof. by rewrite !mulmxA. Qed.

Lemma qfD n (A B : 'M[F]_n) v : qf (A + B) v = qf A v + qf B v.
Proof. by rewrite /qf mulmxDr mulmxDl mxE. Qed.
Lemma qfB n (A B : 'M[F]_n) v : qf (A - B) v = qf A v - qf B v.
Proof. by rewrite /qf mulmxBr mulmxBl !mxE. Qed.
Lemma qfZ n a (A : 'M[F]_n) v : qf (a *: A) v = a * qf A v.
Proof. by rewrite /qf -scalemxAr -scalemxAl mxE. Qed.
Lemma qf0 n v : qf (0 : 'M[F]_n) v = 0.
Proof. by rewrite /qf mulmx0 mul0mx mxE. Qed.
Lemma qf_congr m n (A : 'M[F]_n) (B : 'M_(m,n)) v :
  qf (B *m A *m B^T) v = qf A (B^T *m v).
Proof. by rewrite /qf trmx_mul trmxK !mulmxA. Qed.
Lemma qf0r n (A : 'M[F]_n) : qf A 0 = 0.
Proof. by rewrite /qf mulmx0 mxE. Qed.
Lemma qfN n (A : 'M[F]_n) v : qf A (- v) = qf A v.
Proof. by rewrite /qf trmxN !mulNmx mulmxN opprK. Qed.
Lemma qf1 n (v : 'cV[F]_n) : qf 1%:M v = \sum_i v i 0 ^+ 2.
Proof. by rewrite /qf mulmx1 mxE; apply: eq_bigr => i _; rewrite mxE expr2. Qed.

Lemma psd_sym n (A : 'M[F]_n) : psd A -> A^T = A. Proof. by case. Qed.
Lemma pd_sym n (A : 'M[F]_n) : pd A -> A^T = A. Proof. by case. Qed.

Lemma psd0 n : psd (0 : 'M[F]_n).
Proof. by split=> [|v]; rewrite /sym ?trmx0 ?qf0. Qed.

Lemma pd1 n : pd (1%:M : 'M[F]_n).
Proof.
split=> [|v vn0]; first by rewrite /sym trmx1.
rewrite qf1 lt_neqAle sumr_ge0 ?andbT; last by move=> i _; rewrite sqr_ge0.
rewrite eq_sym psumr_eq0; last by move=> i _; rewrite sqr_ge0.
apply: contra vn0 => /allP h; apply/eqP/matrixP => i j; rewrite ord1 mxE.
by have := h i (mem_index_enum i); rewrite /= sqrf_eq0 => /eqP.
Qed.

Lemma pd_psd n (A : 'M[F]_n) : pd A -> psd A.
Proof.
case=> sA pA; split=> // v; have [->|/pA/ltW//] := eqVneq v 0.
by rewrite qf0r.
Qed.

Lemma psd1 n : psd (1%:M : 'M[F]_n). Proof. exact/pd_psd/pd1. Qed.

Lemma psdD n (A B : 'M[F]_n) : psd A -> psd B -> psd (A + B).
Proof.
case=> sA pA [sB pB]; split; first by rewrite /sym linearD /= sA sB.
by move=> v; rewrite qfD addr_ge0.
Qed.

Lemma pdD n (A B : 'M[F]_n) : pd A -> psd B -> pd (A + B).
Proof.
case=> sA pA [sB pB]; split; first by rewrite /sym linearD /= sA sB.
by move=> v vn0; rewrite qfD ltr_paddr // pA.
Qed.

Lemma pdDr n (A B : 'M[F]_n) : psd A -> pd B -> pd (A + B).
Proof. by move=> pA pB; rewrite addrC; apply: pdD. Qed.

Lemma psdZ n a (A : 'M[F]_n) : 0 <= a -> psd A -> psd (a *: A).
Proof.
move=> a0 [sA pA]; split; first by rewrite /sym linearZ /= sA.
by move=> v; rewrite qfZ mulr_ge0.
Qed.

Lemma pdZ n a (A : 'M[F]_n) : 0 < a -> pd A -> pd (a *: A).
Proof.
move=> a0 [sA pA]; split; first by rewrite /sym linearZ /= sA.
by move=> v vn0; rewrite qfZ mulr_gt0 // pA.
Qed.

Lemma sym_congr m n (A : 'M[F]_n) (B : 'M_(m,n)) : A^T = A -> (B *m A *m B^T)^T = B *m A *m B^T.
Proof. by move=> sA; rewrite !trmx_mul trmxK sA mulmxA. Qed.

Lemma psd_congr m n (A : 'M[F]_n) (B : 'M_(m,n)) : psd A -> psd (B *m A *m B^T).
Proof.
case=> sA pA; split; first exact: sym_congr.
by move=> v; rewrite qf_congr.
Qed.

Lemma psd_congrT m n (A : 'M[F]_n) (B : 'M_(n,m)) : psd A -> psd (B^T *m A *m B).
Proof. by move=> pA; have := psd_congr B^T pA; rewrite trmxK. Qed.

Lemma psd_gram m n (B : 'M[F]_(m,n)) : psd (B *m B^T).
Proof. by have := psd_congr B (psd1 n); rewrite mulmx1. Qed.

Lemma pd_congr n (A : 'M[F]_n) (B : 'M_n) : B \in unitmx -> pd A -> pd (B *m A *m B^T).
Proof.
move=> uB [sA pA]; split; first exact: sym_congr.
move=> v vn0; rewrite qf_congr; apply: pA.
by apply: contra vn0 => /eqP h; apply/eqP; rewrite -(mulKmx (_ : B^T \in unitmx) v) ?unitmx_tr // h mulmx0.
Qed.

Lemma pd_unit n (A : 'M[F]_n) : pd A -> A \in unitmx.
Proof.
case=> sA pA; rewrite -row_free_unit -kermx_eq0; apply/eqP.
apply/eqP/rowV0P => u /sub_kermxP uA0; apply/eqP; apply: contraT => un0.
have /pA : u^T != 0 by apply: contra un0 => /eqP h; rewrite -(trmxK u) h trmx0.
by rewrite /qf trmxK uA0 mul0mx mxE ltxx.
Qed.

Lemma sym_inv n (A : 'M[F]_n) : A^T = A -> (invmx A)^T = invmx A.
Proof. by move=> sA; rewrite trmx_inv sA. Qed.

Lemma inv_congr n (A : 'M[F]_n) : A \in unitmx -> A^T = A -> invmx A *m A *m (invmx A)^T = invmx A.
Proof. by move=> uA sA; rewrite sym_inv // mulVmx // mul1mx. Qed.

Lemma pd_inv n (A : 'M[F]_n) : pd A -> pd (invmx A).
Proof.
move=> pA; have uA := pd_unit pA; rewrite -(inv_congr uA (pd_sym pA)).
by apply: pd_congr; rewrite ?unitmx_inv.
Qed.

Lemma psd_inv n (A : 'M[F]_n) : A \in unitmx -> psd A -> psd (invmx A).
Proof. by move=> uA pA; rewrite -(inv_congr uA (psd_sym pA)); apply: psd_congr. Qed.

(** Cauchy-Schwarz consequence: an invertible psd matrix is pd. *)
Lemma psd_ker n (A : 'M[F]_n) v : psd A -> qf A v = 0 -> A *m v = 0.
Proof.
case=> sA pA h.
have key : forall w t, 0 <= qf A w + 2%:R * t * (w^T *m A *m v) 0 0.
  move=> w t; have := pA (w + t *: v); rewrite /qf.
  have -> : (w + t *: v)^T *m A *m (w + t *: v) =
    w^T *m A *m w + t *: (w^T *m A *m v) + t *: (v^T *m A *m w) + (t * t) *: (v^T *m A *m v).
    by mxsimp; zmod.
  have -> : v^T *m A *m w = w^T *m A *m v.
    by rewrite -[LHS]tr11 !trmxM trmxK sA mulmxA.
  move: h; rewrite /qf !emxE => ->; rewrite !mulr0 addr0.
  by rewrite -addrA -mulrDl -mulr2n -mulr_natl.
have hz : forall w : 'cV[F]_n, (w^T *m A *m v) 0 0 = 0.
  move=> w; set c := (w^T *m A *m v) 0 0; apply/eqP; apply: contraT => cn0.
  have := key w (- (qf A w + 1) / (2%:R * c)); rewrite -/c.
  rewrite mulrAC [2%:R * c * _]mulrC divfK; last by rewrite mulf_neq0 // pnatr_eq0.
  by rewrite opprD addrA subrr add0r oppr_ge0 ler10.
apply/matrixP => i j; rewrite ord1 [RHS]mxE.
have := hz (delta_mx i 0); rewrite -mulmxA trmx_delta.
by rewrite -rowE mxE.
Qed.

Lemma psd_unit_pd n (A : 'M[F]_n) : psd A -> A \in unitmx -> pd A.
Proof.
move=> pA uA; split; first exact: psd_sym.
move=> v vn0; rewrite lt_neqAle (proj2 pA) andbT eq_sym.
apply: contra vn0 => /eqP h; apply/eqP.
by rewrite -(mulKmx uA v) (psd_ker pA h) mulmx0.
Qed.

Lemma pd_eq0 n (A : 'M[F]_n) v : pd A -> qf A v = 0 -> v = 0.
Proof.
case=> _ pA h; apply/eqP; apply: contraT => /pA; by rewrite h ltxx.
Qed.

Lemma mle_refl n (A : 'M[F]_n) : mle A A.
Proof. by rewrite /mle subrr; apply: psd0. Qed.
Lemma mle_trans n (A B C : 'M[F]_n) : mle A B -> mle B C -> mle A C.
Proof. by rewrite /mle => h1 h2; have := psdD h2 h1; rewrite addrA subrK. Qed.

(** ** Kalman algebra *)
Section Update.
Variables n m : nat.
Variables (P : 'M[F]_n) (H : 'M[F]_(m,n)) (R : 'M[F]_m).
Definition Smx := H *m (P *m H^T) + R.
Definition Kmx := P *m H^T *m invmx Smx.
Definition Jmx (K : 'M[F]_(n,m)) := (1%:M - K *m H) *m P *m (1%:M - K *m H)^T + K *m R *m K^T.

Lemma JmxE K : Jmx K = P - K *m (H *m P) - P *m H^T *m K^T + K *m Smx *m K^T.
Proof. rewrite /Jmx /Smx; mxring. Qed.

Hypothesis sP : P^T = P.
Hypothesis sR : R^T = R.
Lemma Smx_sym : Smx^T = Smx.
Proof. by rewrite /Smx trmxD sR !trmxM trmxK sP mulmxA. Qed.
Hypothesis uS : Smx \in unitmx.

Lemma KmxS : Kmx *m Smx = P *m H^T.
Proof. by rewrite /Kmx mulmxKV. Qed.
Lemma KmxT : Smx *m Kmx^T = H *m P.
Proof. by rewrite -[LHS]trmxK trmxM trmxK Smx_sym KmxS trmxM trmxK sP. Qed.

Lemma Jmx_gap G : Jmx G - Jmx Kmx = (G - Kmx) *m Smx *m (G - Kmx)^T.
Proof.
have e1 : G *m Smx *m Kmx^T = G *m (H *m P) by rewrite -mulmxA KmxT.
have e2 : Kmx *m Smx *m Kmx^T = Kmx *m (H *m P) by rewrite -mulmxA KmxT.
have e3 : Kmx *m (H *m P) = P *m H^T *m Kmx^T by rewrite -e2 KmxS.
by rewrite !JmxE trmxB !mulmxBl !mulmxBr e1 e2 KmxS -e3; zmod.
Qed.

Lemma Jmx_short : Jmx Kmx = (1%:M - Kmx *m H) *m P.
Proof.
rewrite JmxE KmxS mulmxBl mul1mx !mulmxA; zmod.
Qed.

Lemma Jmx_minus : Jmx Kmx = P - Kmx *m Smx *m Kmx^T.
Proof. by rewrite Jmx_short mulmxBl mul1mx -!mulmxA KmxT. Qed.

Lemma Jmx_sym K : (Jmx K)^T = Jmx K.
Proof. by rewrite /Jmx trmxD !sym_congr. Qed.
End Update.

Lemma psd_Smx n m (P : 'M[F]_n) (H : 'M_(m,n)) R : psd P -> psd R -> psd (Smx P H R).
Proof. by move=> pP pR; apply: psdD => //; rewrite mulmxA; apply: psd_congr. Qed.

Lemma pd_Smx n m (P : 'M[F]_n) (H : 'M_(m,n)) R : psd P -> pd R -> pd (Smx P H R).
Proof. by move=> pP pR; apply: pdDr => //; rewrite mulmxA; apply: psd_congr. Qed.

Lemma psd_Jmx n m (P : 'M[F]_n) (H : 'M_(m,n)) R K : psd P -> psd R -> psd (Jmx P H R K).
Proof. by move=> pP pR; apply: psdD; apply: psd_congr. Qed.

Lemma Jmx_le n m (P : 'M[F]_n) (H : 'M_(m,n)) R : psd P -> psd R -> Smx P H R \in unitmx ->
  mle (Jmx P H R (Kmx P H R)) P.
Proof.
move=> pP pR uS; rewrite /mle Jmx_minus ?psd_sym //.
have -> : forall X : 'M[F]_n, P - (P - X) = X by move=> X; zmod.
by apply: psd_congr; apply: psd_Smx.
Qed.

Lemma Jmx_opt n m (P : 'M[F]_n) (H : 'M_(m,n)) R G : psd P -> psd R -> Smx P H R \in unitmx ->
  mle (Jmx P H R (Kmx P H R)) (Jmx P H R G).
Proof.
move=> pP pR uS; rewrite /mle Jmx_gap ?psd_sym //.
by apply: psd_congr; apply: psd_Smx.
Qed.


(** ** Information form and completing the square *)
Section Info.
Variables n m : nat.
Variables (P : 'M[F]_n) (H : 'M[F]_(m,n)) (R : 'M[F]_m).
Hypotheses (sP : P^T = P) (sR : R^T = R).
Hypotheses (uP : P \in unitmx) (uR : R \in unitmx) (uS : Smx P H R \in unitmx).
Let S := Smx P H R.
Let K := Kmx P H R.
Let J := Jmx P H R K.
Definition Lmx := invmx P + H^T *m invmx R *m H.

Lemma HK1 : 1%:M - H *m K = R *m invmx S.
Proof.
have -> : R = S - H *m (P *m H^T) by rewrite /S /Smx; zmod.
by rewrite mulmxBl mulmxV // /K /Kmx -/S !mulmxA.
Qed.

Lemma JL1 : J *m Lmx = 1%:M.
Proof.
rewrite /J Jmx_short // -/K /Lmx -mulmxA mulmxDr mulmxV // !mulmxA.
rewrite mulmxBl mul1mx mulmxDr mulmx1.
have -> : K *m H *m (P *m H^T *m invmx R *m H) = K *m (H *m (P *m H^T)) *m invmx R *m H.
  by rewrite !mulmxA.
have -> : H *m (P *m H^T) = S - R by rewrite /S /Smx; zmod.
rewrite [K *m (S - R)]mulmxBr KmxS // -/K.
rewrite !mulmxBl -(mulmxA K R) mulmxV // mulmx1. zmod.
Qed.

Lemma unit_J : J \in unitmx.
Proof. by case/mulmx1_unit: JL1. Qed.
Lemma unit_L : Lmx \in unitmx.
Proof. by case/mulmx1_unit: JL1. Qed.
Lemma invL : invmx Lmx = J.
Proof. by rewrite -[LHS]mul1mx -JL1 mulmxK // unit_L. Qed.
Lemma invJ : invmx J = Lmx.
Proof. by rewrite -invL invmxK. Qed.
Lemma L_sym : Lmx^T = Lmx.
Proof. by rewrite /Lmx trmxD sym_inv // !trmxM trmxK sym_inv // mulmxA. Qed.

Lemma KJ : K = J *m H^T *m invmx R.
Proof.
rewrite /J Jmx_short // -/K mulmxBl mul1mx mulmxBl mulmxBl.
have -> : K *m H *m P *m H^T = K *m (S - R).
  have -> : S - R = H *m (P *m H^T) by rewrite /S /Smx; zmod.
  by rewrite !mulmxA.
rewrite mulmxBr KmxS // -/K mulmxBl -(mulmxA K R) mulmxV // mulmx1; zmod.
Qed.

Lemma LK : Lmx *m K = H^T *m invmx R.
Proof. by rewrite KJ -mulmxA -invL mulKVmx // unit_L. Qed.

Lemma KLK : invmx R - K^T *m Lmx *m K = invmx S.
Proof.
rewrite -mulmxA LK mulmxA -[K^T *m H^T]trmxM.
have -> : invmx R - (H *m K)^T *m invmx R = (1%:M - H *m K)^T *m invmx R.
  by rewrite trmxB trmx1 mulmxBl mul1mx.
rewrite HK1 trmxM sR (sym_inv (Smx_sym H sP sR)) -mulmxA mulmxV // mulmx1 //.
Qed.

Lemma complete_square (d : 'cV[F]_n) (y : 'cV[F]_m) :
  qf (invmx P) d + qf (invmx R) (y - H *m d) = qf Lmx (d - K *m y) + qf (invmx S) y.
Proof.
rewrite -KLK /qf -!addmxE; congr (fun_of_matrix _ 0 0).
have e1 : d^T *m Lmx *m (K *m y) = d^T *m H^T *m invmx R *m y.
  by rewrite mulmxA -(mulmxA d^T) LK !mulmxA.
have e2 : (K *m y)^T *m Lmx *m d = y^T *m invmx R *m H *m d.
  have : (d^T *m Lmx *m (K *m y))^T = (d^T *m H^T *m invmx R *m y)^T by rewrite e1.
  by rewrite !trmxM !trmxK (sym_inv sR) L_sym !mulmxA.
have e3 : d^T *m Lmx *m d = d^T *m invmx P *m d + d^T *m H^T *m invmx R *m H *m d.
  by rewrite /Lmx mulmxDr mulmxDl !mulmxA.
have e4 : (K *m y)^T *m Lmx *m (K *m y) = y^T *m (K^T *m Lmx *m K) *m y.
  by rewrite trmxM !mulmxA.
rewrite (trmxB d) !(mulmxBl, mulmxBr) e1 e2 e3 e4 !trmxM !trmxB !trmxM.
rewrite !(mulmxBl, mulmxBr) !mulmxA; zmod.
Qed.
End Info.

(** Time update: completing the square in the previous state. *)
Section PredictSquare.
Variables n : nat.
Variables (P : 'M[F]_n) (A : 'M[F]_n) (Q : 'M[F]_n).
Hypotheses (sP : P^T = P) (sQ : Q^T = Q) (uP : P \in unitmx) (uQ : Q \in unitmx)
  (uS : Smx P A Q \in unitmx).
Lemma predict_square (x x0 x1 : 'cV[F]_n) :
  qf (invmx P) (x0 - x) + qf (invmx Q) (x1 - A *m x0)
  = qf (Lmx P A Q) (x0 - (x + Kmx P A Q *m (x1 - A *m x))) + qf (invmx (Smx P A Q)) (x1 - A *m x).
Proof.
have := complete_square sP sQ uP uQ uS (x0 - x) (x1 - A *m x).
have -> : x1 - A *m x - A *m (x0 - x) = x1 - A *m x0 by rewrite mulmxBr; zmod.
move=> ->; congr (qf _ _ + _); zmod.
Qed.
End PredictSquare.


(** ** Stacked measurements *)
Lemma unitmx_lblock n1 n2 (A : 'M[F]_n1) (C : 'M_(n2,n1)) (D : 'M[F]_n2) :
  (block_mx A 0 C D \in unitmx) = (A \in unitmx) && (D \in unitmx).
Proof. by rewrite !unitmxE det_lblock unitrM. Qed.
Lemma unitmx_ublock n1 n2 (A : 'M[F]_n1) (B : 'M_(n1,n2)) (D : 'M[F]_n2) :
  (block_mx A B 0 D \in unitmx) = (A \in unitmx) && (D \in unitmx).
Proof. by rewrite !unitmxE det_ublock unitrM. Qed.

Definition xup n m (x : 'cV[F]_n) (P : 'M[F]_n) (H : 'M[F]_(m,n)) (R : 'M[F]_m) (z : 'cV[F]_m) :=
  x + Kmx P H R *m (z - H *m x).
Definition Pup n m (P : 'M[F]_n) (H : 'M[F]_(m,n)) (R : 'M[F]_m) := Jmx P H R (Kmx P H R).

Section Stack.
Variables n m1 m2 : nat.
Variables (P : 'M[F]_n) (H1 : 'M[F]_(m1,n)) (H2 : 'M[F]_(m2,n)) (R1 : 'M[F]_m1) (R2 : 'M[F]_m2).
Hypotheses (sP : P^T = P) (sR1 : R1^T = R1) (sR2 : R2^T = R2).
Let H := col_mx H1 H2.
Let R := block_mx R1 0 0 R2.
Hypothesis (uS1 : Smx P H1 R1 \in unitmx).
Let P1 := Pup P H1 R1.
Let K1 := Kmx P H1 R1.
Let K2 := Kmx P1 H2 R2.

Lemma sP1 : P1^T = P1. Proof. by rewrite /P1 /Pup Jmx_sym. Qed.
Lemma P1E : P1 = P - K1 *m H1 *m P.
Proof. by rewrite /P1 /Pup Jmx_short // mulmxBl mul1mx. Qed.

Lemma SmxE : Smx P H R = block_mx (Smx P H1 R1) (H1 *m P *m H2^T) (H2 *m P *m H1^T) (Smx P H2 R2).
Proof.
rewrite /Smx /H /R tr_col_mx mul_mx_row mul_col_mx !mul_mx_row block_mxEv.
rewrite -[X in _ + X]/(block_mx R1 0 0 R2) block_mxEv add_col_mx !add_row_mx !addr0 !mulmxA.
by [].
Qed.

Lemma S2E : Smx P1 H2 R2 = Smx P H2 R2 - H2 *m P *m H1^T *m invmx (Smx P H1 R1) *m (H1 *m P *m H2^T).
Proof. rewrite P1E /K1 /Kmx; move: (invmx (Smx P H1 R1)) => Si; rewrite /Smx; mxring. Qed.

Lemma Sstack_det : \det (Smx P H R) = \det (Smx P H1 R1) * \det (Smx P1 H2 R2).
Proof.
rewrite SmxE.
have -> : block_mx (Smx P H1 R1) (H1 *m P *m H2^T) (H2 *m P *m H1^T) (Smx P H2 R2) =
  block_mx 1%:M 0 (H2 *m P *m H1^T *m invmx (Smx P H1 R1)) 1%:M *m
  block_mx (Smx P H1 R1) (H1 *m P *m H2^T) 0 (Smx P1 H2 R2).
  rewrite mulmx_block ?mul1mx ?mul0mx ?mulmx0 ?addr0 mulmxKV //; congr block_mx.
  by rewrite S2E; zmod.
by rewrite det_mulmx det_lblock det_ublock !det1 !mul1r.
Qed.

Lemma Sstack_unit : (Smx P H R \in unitmx) = (Smx P1 H2 R2 \in unitmx).
Proof. by move: uS1; rewrite !unitmxE Sstack_det unitrM => ->. Qed.

Hypothesis (uS2 : Smx P1 H2 R2 \in unitmx).

Lemma Kstack : Kmx P H R = row_mx (K1 - K2 *m H2 *m K1) K2.
Proof.
have uS : Smx P H R \in unitmx by rewrite Sstack_unit.
rewrite /Kmx; apply: (canLR (mulmxK uS)).
rewrite SmxE /H tr_col_mx mul_mx_row mul_row_block; congr row_mx.
  rewrite mulmxBl KmxS // -(mulmxA (K2 *m H2)) KmxS // !mulmxA; zmod.
have e : K2 *m Smx P1 H2 R2 = P1 *m H2^T by rewrite /K2 KmxS.
rewrite -[X in X = _](subrK (K1 *m H1 *m P *m H2^T)) -mulmxBl -P1E -e.
rewrite /Smx P1E; mxring.
Qed.

Lemma xup_stack (x : 'cV[F]_n) z1 z2 :
  xup x P H R (col_mx z1 z2) = xup (xup x P H1 R1 z1) P1 H2 R2 z2.
Proof.
rewrite /xup Kstack /H mul_col_mx opp_col_mx add_col_mx mul_row_col -/K1 -/K2.
mxring.
Qed.

Lemma Pup_stack : Pup P H R = Pup P1 H2 R2.
Proof.
have uS : Smx P H R \in unitmx by rewrite Sstack_unit.
rewrite /Pup Jmx_short // ?tr_block_mx ?sR1 ?sR2 ?trmx0 // Jmx_short // ?sP1 //.
rewrite -/K2 Kstack /H mul_row_col P1E; mxring.
Qed.
End Stack.

(** Re-expressing the measurement in other units changes nothing. *)
Section MeasTransform.
Variables n m : nat.
Variables (P : 'M[F]_n) (H : 'M[F]_(m,n)) (R : 'M[F]_m) (T : 'M[F]_m).
Hypothesis uT : T \in unitmx.
Lemma Smx_T : Smx P (T *m H) (T *m R *m T^T) = T *m Smx P H R *m T^T.
Proof. rewrite /Smx; mxring. Qed.
Lemma invmxM k (A B : 'M[F]_k) : A \in unitmx -> B \in unitmx -> invmx (A *m B) = invmx B *m invmx A.
Proof.
move=> uA uB; have uAB : A *m B \in unitmx by rewrite unitmx_mul uA.
by apply: (can_inj (mulKmx uAB)); rewrite mulmxV // mulmxA mulmxK // mulmxV.
Qed.
Hypothesis uS : Smx P H R \in unitmx.
Lemma Kmx_T : Kmx P (T *m H) (T *m R *m T^T) = Kmx P H R *m invmx T.
Proof.
rewrite /Kmx Smx_T invmxM ?unitmx_tr // ?unitmx_mul ?uT // invmxM //.
by rewrite trmx_mul !mulmxA mulmxK // unitmx_tr.
Qed.
Lemma xup_T x z : xup x P (T *m H) (T *m R *m T^T) (T *m z) = xup x P H R z.
Proof. by rewrite /xup Kmx_T -mulmxA -[T *m H *m x]mulmxA -mulmxBr mulKmx. Qed.
Lemma Pup_T : Pup P (T *m H) (T *m R *m T^T) = Pup P H R.
Proof.
rewrite /Pup Kmx_T /Jmx mulmxA mulmxKV //; congr (_ + _).
have e : T^T *m (invmx T)^T = 1%:M by rewrite -trmx_mul mulVmx // trmx1.
by rewrite trmx_mul !mulmxA mulmxKV // -(mulmxA _ T^T) e mulmx1.
Qed.
End MeasTransform.

(** The order of two stacked blocks is irrelevant. *)
Section Swap.
Variables n m : nat.
Definition swapmx : 'M[F]_(m + m) := block_mx 0 1%:M 1%:M 0.
Lemma swapmxT : swapmx^T = swapmx.
Proof. by rewrite /swapmx tr_block_mx !trmx0 !trmx1. Qed.
Lemma swapmx_unit : swapmx \in unitmx.
Proof.
suff /mulmx1_unit [] : swapmx *m swapmx = 1%:M by [].
by rewrite /swapmx mulmx_block !mul0mx !mulmx0 !mulmx1 !add0r !addr0 -scalar_mx_block.
Qed.
Lemma swap_col k (A B : 'M[F]_(m,k)) : swapmx *m col_mx A B = col_mx B A.
Proof. by rewrite /swapmx mul_block_col !mul0mx !mul1mx add0r addr0. Qed.
Lemma swap_block (A B : 'M[F]_m) : swapmx *m block_mx A 0 0 B *m swapmx^T = block_mx B 0 0 A.
Proof.
by rewrite swapmxT /swapmx !mulmx_block !mul0mx !mul1mx !mulmx0 !mulmx1 !add0r !addr0.
Qed.

Variables (P : 'M[F]_n) (H1 H2 : 'M[F]_(m,n)) (R1 R2 : 'M[F]_m).
Hypotheses (sP : P^T = P) (sR1 : R1^T = R1) (sR2 : R2^T = R2).
Hypothesis uS1 : Smx P H1 R1 \in unitmx.
Hypothesis uS2 : Smx P H2 R2 \in unitmx.
Hypothesis uS12 : Smx (Pup P H1 R1) H2 R2 \in unitmx.
Lemma swap_unit : Smx (Pup P H2 R2) H1 R1 \in unitmx.
Proof.
rewrite -Sstack_unit // -swap_col -swap_block Smx_T.
by rewrite !unitmx_mul swapmx_unit unitmx_tr swapmx_unit Sstack_unit // uS12.
Qed.
Lemma xup_swap x z1 z2 :
  xup (xup x P H1 R1 z1) (Pup P H1 R1) H2 R2 z2 = xup (xup x P H2 R2 z2) (Pup P H2 R2) H1 R1 z1.
Proof.
rewrite -!xup_stack //; last exact: swap_unit.
rewrite -(swap_col H1) -(swap_col z1) -(swap_block R1) xup_T ?swapmx_unit //.
by rewrite Sstack_unit.
Qed.
Lemma Pup_swap : Pup (Pup P H1 R1) H2 R2 = Pup (Pup P H2 R2) H1 R1.
Proof.
rewrite -!Pup_stack //; last exact: swap_unit.
rewrite -(swap_col H1) -(swap_block R1) Pup_T ?swapmx_unit //.
by rewrite Sstack_unit.
Qed.
End Swap.

End LinAlg.
