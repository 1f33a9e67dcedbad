(** * van_loan_discretization (C42), inv_diagonal and outer_product_sum (C48), exact arithmetic. *)
From Coq Require Import ZArith QArith.
From mathcomp Require Import all_ssreflect all_algebra.
From Verif Require Import Ops Exact Spec ZmodTac FieldTac LinAlg Model_KF Model_Common Proof_Common Prop_Kin Proof_Disc.
Set Implicit Arguments.
Unset Strict Implicit.
Unset Printing Implicit Defensive.
Import Order.TTheory GRing.Theory Num.Theory.
Local Close Scope Q_scope.
Local Close Scope Z_scope.
Local Open Scope ring_scope.

(** Powers of a square matrix, and the exponential series of a nilpotent one. *)
Fixpoint mxpow (F : realFieldType) n (A : 'M[F]_n) (k : nat) : 'M[F]_n :=
  if k is k'.+1 then A *m mxpow A k' else 1%:M.
Definition exp_series (F : realFieldType) n (A : 'M[F]_n) (N : nat) : 'M[F]_n :=
  \sum_(k < N) (k`!%:R)^-1 *: mxpow A k.
(** What is assumed of scipy.linalg.expm: on nilpotent matrices it is the (finite) exponential series. *)
Definition expm_ok (F : realFieldType) n (expm : 'M[F]_n -> 'M[F]_n) : Prop :=
  forall A N, (N <= n)%N -> mxpow A N = 0 -> expm A = exp_series A N.

Section V.
Variable F : realFieldType.

Lemma mxpowZ n (A : 'M[F]_n) c k : mxpow (c *: A) k = c ^+ k *: mxpow A k.
Proof. by elim: k => [|k IH] /=; rewrite ?expr0 ?scale1r // IH -scalemxAl -scalemxAr scalerA exprS. Qed.
Lemma mxpowD n (A : 'M[F]_n) k l : mxpow A (k + l) = mxpow A k *m mxpow A l.
Proof. by elim: k => [|k IH] /=; rewrite ?mul1mx // IH mulmxA. Qed.
Lemma mxpow_ge n (A : 'M[F]_n) N k : mxpow A N = 0 -> (N <= k)%N -> mxpow A k = 0.
Proof. by move=> h /subnK <-; rewrite mxpowD h mulmx0. Qed.
Lemma mxpowSr n (A : 'M[F]_n) k : mxpow A k.+1 = mxpow A k *m A.
Proof. by rewrite -addn1 mxpowD /= mulmx1. Qed.
Lemma mxpowT n (A : 'M[F]_n) k : mxpow A^T k = (mxpow A k)^T.
Proof. by elim: k => [|k IH]; rewrite ?trmx1 // mxpowSr IH -trmx_mul. Qed.

(** Sums over a triangle by rows and by antidiagonals. *)
Lemma tri (V : zmodType) N (g : nat -> nat -> V) :
  \sum_(m < N) \sum_(i < N - m) g m i = \sum_(p < N) \sum_(i < p.+1) g (p - i)%N i.
Proof.
elim: N => [|N IH]; first by rewrite !big_ord0.
rewrite [RHS]big_ord_recr /= -IH.
transitivity (\sum_(m < N.+1) (\sum_(i < N - m) g m i + g m (N - m)%N)).
  by apply: eq_bigr => m _; rewrite subSn -1?ltnS // big_ord_recr.
rewrite big_split big_ord_recr /= subnn big_ord0 addr0; congr (_ + _).
rewrite (reindex_inj rev_ord_inj) /=; apply: eq_bigr => i _.
by rewrite subSS subKn // -ltnS.
Qed.

(** A double sum over a square of a function vanishing beyond an antidiagonal. *)
Lemma sq_tri (V : zmodType) N (g : nat -> nat -> V) : (forall m i, (N <= m + i)%N -> g m i = 0) ->
  \sum_(m < N) \sum_(i < N) g m i = \sum_(p < N) \sum_(i < p.+1) g (p - i)%N i.
Proof.
move=> h; rewrite -tri; apply: eq_bigr => m _.
rewrite -!(big_mkord xpredT (fun i => g m i)) [LHS](@big_cat_nat _ _ _ (N - m)) ?leq_subr //=.
rewrite [X in _ + X]big_nat_cond [X in _ + X]big1 ?addr0 // => i /andP[/andP[hi _] _].
by apply: h; rewrite -leq_subLR.
Qed.

Lemma alt_bin n p : \sum_(i < p.+1) (-1) ^+ i * 'C(n.+1, p - i)%:R = 'C(n, p)%:R :> F.
Proof.
elim: p => [|p IH]; first by rewrite big_ord_recl big_ord0 addr0 expr0 mul1r !bin0.
rewrite big_ord_recl expr0 mul1r subn0 binS natrD.
rewrite (eq_bigr (fun i : 'I_p.+1 => - ((-1) ^+ i * 'C(n.+1, p - i)%:R))); last first.
  by move=> i _; rewrite lift0 subSS exprS !mulNr mul1r.
by rewrite sumrN IH addrK.
Qed.

Lemma coef p j : \sum_(i < p.+1) (-1) ^+ i / ((p - i)`!%:R * (i + j).+1`!%:R) = ((p`! * j`! * (p + j).+1)%N%:R)^-1 :> F.
Proof.
have e : ('C(p + j, p)%:R : F) / ((p + j).+1`!)%:R = ((p`! * j`! * (p + j).+1)%N%:R)^-1.
  have h : ('C(p + j, p) * (p`! * j`!) = (p + j)`!)%N by rewrite -[in RHS](@bin_fact (p + j) p) ?leq_addr // addKn.
  have h0 : 'C(p + j, p)%:R != 0 :> F by rewrite pnatr_eq0 -lt0n bin_gt0 leq_addr.
  rewrite factS -h mulnCA [((p + j).+1 * _)%N]mulnC.
  by rewrite natrM invfM mulrA divff // mul1r.
rewrite -e -alt_bin mulr_suml; apply: eq_bigr => i _; rewrite -mulrA; congr (_ * _).
have hi : (i <= p)%N by rewrite -ltnS.
have hb : (p - i <= (p + j).+1)%N by apply: leq_trans (leq_subr _ _) _; rewrite -addnS leq_addr.
have h2 : ((p + j).+1 - (p - i) = (i + j).+1)%N.
  by rewrite subnBA // -addnS -addnA addKn addSn addnC.
have h := bin_fact hb; rewrite h2 in h.
have h0 : 'C((p + j).+1, p - i)%:R != 0 :> F by rewrite pnatr_eq0 -lt0n bin_gt0.
by rewrite -h [in RHS]natrM [in RHS]invfM [in RHS]mulrA divff // mul1r natrM.
Qed.

(** Powers of the block matrix ((-F, W), (0, F^T)). *)
Lemma blockpow n (A W : 'M[F]_n) k :
  mxpow (block_mx (- A) W 0 A^T) k =
  block_mx (mxpow (- A) k) (\sum_(i < k) mxpow (- A) (k.-1 - i) *m W *m mxpow A^T i) 0 (mxpow A^T k).
Proof.
elim: k => [|k IH] /=; first by rewrite big_ord0 scalar_mx_block.
rewrite IH mulmx_block !mulmx0 !mul0mx !addr0 !add0r; congr block_mx.
rewrite big_ord_recr /= subnn mul1mx; congr (_ + _); rewrite mulmx_sumr; apply: eq_bigr => i _.
have -> : (k - i = (k.-1 - i).+1)%N by case: k i {IH} => [[]//|k] i; rewrite /= subSn // -ltnS.
by rewrite /= !mulmxA.
Qed.

End V.

Section W.
Variables (F : realFieldType) (fsqrt fexp flog : F -> F).
Notation EO := (exactO fsqrt fexp flog).
Add Field fldV : (fF_theory F).

Inductive ord_spec m n : 'I_(m + n) -> Prop :=
| OrdL (i : 'I_m) : ord_spec (lshift n i)
| OrdR (i : 'I_n) : ord_spec (rshift m i).
Lemma ord_cases m n (i : 'I_(m + n)) : ord_spec i.
Proof. by rewrite -(splitK i); case: (fintype.split i) => k; [exact: OrdL|exact: OrdR]. Qed.
(** The lines that fill the block matrix. *)
Lemma vl_block n (A B D : 'M[F]_n) :
  mwrite (o := EO) (mwrite (o := EO) (mwrite (o := EO) (@mzeros EO (n + n) (n + n)) 0 0 A) 0 n B) n n D = block_mx A B 0 D.
Proof.
apply/matrixP => i j; rewrite /mwrite /= !mxE !mx_getE !mxE !mx_getE !mxE !mx_getE !mxE !lebE !ltbE ?minusE ?plusE ?subn0 ?add0n.
have h1 (k : 'I_n) : (n <= k)%N = false by rewrite leqNgt ltn_ord.
have h2 (k : 'I_n) : (n <= n + k)%N by rewrite leq_addr.
have h3 (k : 'I_n) : (n + k < n + n)%N by rewrite ltn_add2l.
have h4 (k : 'I_n) : (n + k < n)%N = false by rewrite ltnNge leq_addr.
case: (ord_cases i) => i'; case: (ord_cases j) => j'; rewrite ?(unsplitK (inl _)) ?(unsplitK (inr _)) /= ?leq0n ?ltn_ord /=.
all: by rewrite ?h1 ?h2 ?h3 ?h4 /= ?row_mxEl ?row_mxEr ?addKn ?mx_getE ?mxE.
Qed.

Lemma slice_r m n p (B : 'M[F]_(m + n, m + p)) : mslice (o := EO) B m m n p = drsubmx B.
Proof.
apply/matrixP => i j; rewrite /mslice !mxE ?plusE.
exact: (mx_getE B (rshift m i) (rshift m j)).
Qed.
Lemma slice_ur m n (B : 'M[F]_(m + n, m + n)) : mslice (o := EO) B 0 m m n = ursubmx B.
Proof.
apply/matrixP => i j; rewrite /mslice !mxE ?plusE add0n.
exact: (mx_getE B (lshift n i) (rshift m j)).
Qed.

Lemma submx_sum m n (I : nat) (f : 'I_I -> 'M[F]_(m + n)) : 
  drsubmx (\sum_(i < I) f i) = \sum_(i < I) drsubmx (f i) /\ ursubmx (\sum_(i < I) f i) = \sum_(i < I) ursubmx (f i).
Proof. by split; apply/matrixP => a b; rewrite !mxE !summxE; apply: eq_bigr => i _; rewrite !mxE. Qed.

Lemma trim (V : zmodType) (f : nat -> V) N M : (N <= M)%N -> (forall i, (N <= i)%N -> f i = 0) -> \sum_(i < M) f i = \sum_(i < N) f i.
Proof.
move=> h z; rewrite -!(big_mkord xpredT f) (@big_cat_nat _ _ _ N) //= [X in _ + X]big_nat_cond [X in _ + X]big1 ?addr0 //.
by move=> i /andP[/andP[hi _] _]; exact: z.
Qed.

Lemma half_le N i : (i < N)%N -> (N <= (N + N).-1 - i)%N.
Proof. by case: N => // N; rewrite ltnS => hi; rewrite addSn /= addnC -addnBA // leq_addr. Qed.

(** The general closed form, for any nilpotent F of any size. *)
Lemma van_loan_nilpotent n k expm (A : 'M[F]_n) (G : 'M[F]_(n, k)) dt N : expm_ok expm -> (N <= n)%N -> mxpow A N = 0 ->
  let r := van_loan_discretization (o := EO) expm A G dt in
  (r.1 : 'M[F]_n) = exp_series (dt *: A) N /\
  (r.2 : 'M[F]_n) = \sum_(p < N) \sum_(j < N) (dt ^+ (p + j).+1 / (p`! * j`! * (p + j).+1)%N%:R) *: (mxpow A p *m (G *m G^T) *m (mxpow A j)^T).
Proof.
move=> ex le nil r.
pose W := G *m G^T.
have EA : expm (block_mx (- (dt *: A)) (dt *: W) 0 (dt *: A)^T) = exp_series (block_mx (- (dt *: A)) (dt *: W) 0 (dt *: A)^T) (N + N).
  apply: ex; first exact: leq_add. rewrite blockpow.
  have e1 : mxpow (- (dt *: A)) (N + N) = 0 by rewrite -scaleN1r !mxpowZ (mxpow_ge nil) ?leq_addr // !scaler0.
  have e2 : mxpow (dt *: A)^T (N + N) = 0 by rewrite mxpowT mxpowZ (mxpow_ge nil) ?leq_addr // scaler0 trmx0.
  rewrite e1 e2 big1 ?block_mx0 ?block_mx_eq0 //; last first.
  move=> i _; case: (leqP N i) => hi.
    by rewrite mxpowT mxpowZ (mxpow_ge nil) // scaler0 trmx0 mulmx0.
  have hi2 := half_le hi.
  by rewrite -scaleN1r !mxpowZ (mxpow_ge nil hi2) !scaler0 !mul0mx.
have tz : (dt *: A)^T = dt *: A^T by apply/matrixP => a b; rewrite !mxE.
have e1 : (r.1 : 'M[F]_n) = exp_series (dt *: A) N.
  transitivity ((drsubmx (exp_series (block_mx (- (dt *: A)) (dt *: W) 0 (dt *: A)^T) (N + N)))^T).
    by rewrite -EA; rewrite /r /van_loan_discretization slice_r vl_block /= scaleN1r tz.
  rewrite /exp_series (proj1 (submx_sum _)) linear_sum (@trim _ (fun i => (drsubmx (i`!%:R^-1 *: mxpow (block_mx (- (dt *: A)) (dt *: W) 0 (dt *: A)^T) i))^T) N) ?leq_addr //; last first.
    move=> i hi; rewrite blockpow scale_block_mx block_mxKdr mxpowT mxpowZ (mxpow_ge nil) //.
    by rewrite scaler0 trmx0 scaler0 trmx0.
  by apply: eq_bigr => i _; rewrite blockpow scale_block_mx block_mxKdr mxpowT linearZ /= trmxK.
split=> //.
have -> : (r.2 : 'M[F]_n) = (r.1 : 'M[F]_n) *m ursubmx (exp_series (block_mx (- (dt *: A)) (dt *: W) 0 (dt *: A)^T) (N + N)).
  by rewrite -EA /r /van_loan_discretization /fst /snd slice_ur vl_block /= scaleN1r tz.
rewrite e1; move: {EA} r e1 => _ _.
pose g a j : 'M[F]_n := ((a + j).+1`!%:R^-1 * ((-1) ^+ a * dt ^+ (a + j).+1)) *: (mxpow A a *m W *m (mxpow A j)^T).
have gz a j : (N <= a)%N || (N <= j)%N -> g a j = 0.
  by rewrite /g; case/orP => h; rewrite (mxpow_ge nil h) ?trmx0 ?mulmx0 ?mul0mx scaler0.
have pn l : mxpow (- (dt *: A)) l = ((-1) ^+ l * dt ^+ l) *: mxpow A l by rewrite -scaleN1r scalerA mxpowZ exprMn.
have pt l : mxpow (dt *: A)^T l = dt ^+ l *: (mxpow A l)^T by rewrite mxpowT mxpowZ; apply/matrixP => a b; rewrite !mxE.
have {ex}Y : ursubmx (exp_series (block_mx (- (dt *: A)) (dt *: W) 0 (dt *: A)^T) (N + N)) = \sum_(a < N) \sum_(j < N) g a j.
  rewrite /exp_series (proj2 (submx_sum _)).
  transitivity (\sum_(k < N + N) \sum_(i < k) g (k.-1 - i)%N i).
    apply: eq_bigr => i _; rewrite blockpow scale_block_mx block_mxKur scaler_sumr; apply: eq_bigr => j _.
    have hi : ((i.-1 - j + j).+1 = i)%N by case: (nat_of_ord i) j => [[]//|i'] j /=; rewrite subnK // -ltnS.
    rewrite /g hi pn pt -!scalemxAr -!scalemxAl !scalerA; congr (_ *: _).
    have -> : dt ^+ i = dt * (dt ^+ (i.-1 - j) * dt ^+ j) by rewrite -exprD -exprS hi.
    by move: (_^-1) ((-1) ^+ _) (dt ^+ _) (dt ^+ _) => u v w x; toF; ring.
  case: (N) gz {nil} => [|N'] gz; first by rewrite !big_ord0.
  rewrite addnS big_ord_recl big_ord0 add0r.
  rewrite (eq_bigr (fun k : 'I_(N'.+1 + N') => \sum_(i < k.+1) g (k - i)%N i)); last by move=> q _.
  rewrite -sq_tri; last first.
    move=> a j h; apply: gz; case: ltnP => //= ha; case: ltnP => //= hj.
    by move: h; rewrite leqNgt addSn ltnS (leq_add ha hj).
  rewrite (@trim _ (fun a => \sum_(j < N'.+1 + N') g a j) N'.+1) ?leq_addr //; last first.
    by move=> a ha; rewrite big1 // => j _; rewrite gz // ha.
  by apply: eq_bigr => a _; rewrite (@trim _ (g a) N'.+1) ?leq_addr // => j hj; rewrite gz // hj orbT.
rewrite Y exchange_big /= mulmx_sumr [RHS]exchange_big /=; apply: eq_bigr => j _.
pose h m a : 'M[F]_n := ((m`!%:R^-1 * dt ^+ m) * ((a + j).+1`!%:R^-1 * ((-1) ^+ a * dt ^+ (a + j).+1))) *: (mxpow A (m + a) *m W *m (mxpow A j)^T).
transitivity (\sum_(m < N) \sum_(a < N) h m a).
  rewrite /exp_series mulmx_suml; apply: eq_bigr => m _; rewrite mulmx_sumr; apply: eq_bigr => a _.
  by rewrite /g /h mxpowZ scalerA -scalemxAl -scalemxAr scalerA mxpowD !mulmxA.
rewrite sq_tri; last by move=> m a hm; rewrite /h (mxpow_ge nil hm) !mul0mx scaler0.
apply: eq_bigr => p _; rewrite -coef mulr_sumr scaler_suml; apply: eq_bigr => a _; rewrite /h.
have ha : (a <= p)%N by rewrite -ltnS.
rewrite subnK //; congr (_ *: _).
have -> : dt ^+ (p + j).+1 = dt ^+ (p - a) * dt ^+ (a + j).+1 by rewrite -exprD addnS addnA subnK.
move: (fact_neq0 F (p - a)) (fact_neq0 F (a + j).+1).
move: (_ ^+ a) ((p - a)`!%:R) ((a + j).+1`!%:R) (dt ^+ (p - a)) (dt ^+ (a + j).+1) => u v w x y hv hw.
by rewrite invfM; move: (v^-1) (w^-1) => v' w'; toF; ring.
Qed.

(** Such an expm exists. *)
Definition nil_expm n (A : 'M[F]_n) : 'M[F]_n := exp_series A (find (fun N => mxpow A N == 0) (iota 0 n.+1)).
Lemma nil_expm_ok n : expm_ok (@nil_expm n).
Proof.
move=> A N le nil; rewrite /nil_expm; set K := find _ _.
have hK : (K <= N)%N.
  rewrite leqNgt; apply/negP => h; have := before_find 0%N h.
  by rewrite nth_iota // add0n nil eqxx.
have hn : has (fun N => mxpow A N == 0) (iota 0 n.+1).
  by apply/hasP; exists N; rewrite ?mem_iota ?ltnS //; apply/eqP.
have nilK : mxpow A K = 0.
  have := nth_find 0%N hn; rewrite nth_iota ?add0n; last by move: hn; rewrite has_find size_iota.
  by move/eqP.
rewrite /exp_series [RHS](@trim _ (fun k => k`!%:R^-1 *: mxpow A k) K) // => k hk.
by rewrite (mxpow_ge nilK hk) scaler0.
Qed.

(** The kinematic model x^(k)' = x^(k+1), white noise of amplitude g driving the last derivative. *)
Definition shift n : 'M[F]_n := \matrix_(i, j) (j == i.+1 :> nat)%:R.
Definition drive n (g : F) : 'M[F]_(n.+1, 1) := \matrix_(i, j) (g * (i == n :> nat)%:R).

Lemma shift_pow n p (i j : 'I_n) : mxpow (shift n) p i j = (j == i + p :> nat)%N%:R.
Proof.
elim: p i j => [|p IH] i j; first by rewrite mxE addn0 -val_eqE eq_sym.
rewrite /= mxE; case: (ltnP i.+1 n) => hi.
- rewrite (bigD1 (Ordinal hi)) //= IH mxE eqxx mul1r big1 ?addr0 ?addSnnS // => k hk.
  by rewrite mxE; case: eqP => [e|_]; [case/eqP: hk; apply: val_inj|rewrite mul0r].
- rewrite big1; last by move=> k _; rewrite mxE; case: eqP => [e|_]; [have := ltn_ord k; rewrite e ltnNge hi|rewrite mul0r].
  case: eqP => // e; have := ltn_ord j; rewrite e ltnNge (leq_trans hi) // addnS ltnS leq_addr //.
Qed.
Lemma shift_nil n : mxpow (shift n) n = 0.
Proof. by apply/matrixP => i j; rewrite shift_pow mxE; case: eqP => // e; have := ltn_ord j; rewrite e ltnNge leq_addl. Qed.
Lemma shift_drive n p g (i : 'I_n.+1) : (mxpow (shift n.+1) p *m drive n g) i 0 = g * (i + p == n)%N%:R.
Proof.
rewrite mxE (bigD1 ord_max) //= shift_pow mxE eqxx mulr1 eq_sym mulrC big1 ?addr0 // => k hk.
by rewrite [drive _ _ _ _]mxE; case: eqP => [e|_]; [case/eqP: hk; apply: val_inj|rewrite !mulr0].
Qed.
End W.

(** ** C42.  The van Loan discretization of any nilpotent system x' = F x + G w with unit white noise
    w: the transition matrix exp(F dt) and the integral over [0, dt] of
    exp(F s) G G^T exp(F s)^T ds, each as its (finite) power series. *)
Theorem C42_van_loan : forall (F : realFieldType) (fsqrt fexp flog : F -> F) n k expm (A : 'M[F]_n) (G : 'M[F]_(n, k)) dt N,
  expm_ok expm -> (N <= n)%N -> mxpow A N = 0 ->
  let r := van_loan_discretization (o := exactO fsqrt fexp flog) expm A G dt in
  (r.1 : 'M[F]_n) = exp_series (dt *: A) N /\
  (r.2 : 'M[F]_n) = \sum_(p < N) \sum_(j < N) (dt ^+ (p + j).+1 / (p`! * j`! * (p + j).+1)%N%:R) *: (mxpow A p *m (G *m G^T) *m (mxpow A j)^T).
Proof. exact: van_loan_nilpotent. Qed.
Print Assumptions C42_van_loan.

Lemma Ok_inj T (a b : T) : Ok a = Ok b -> a = b. Proof. by move=> []. Qed.
Lemma ord_ok order : (1 <= order <= 3)%N -> negb (Nat.eqb order.+1 2 || Nat.eqb order.+1 3 || Nat.eqb order.+1 4) = false.
Proof. by case: order => [|[|[|[|]]]]. Qed.
Lemma vl_cell (F : realFieldType) (f1 f2 f3 : F -> F) n (T : 'M[F]_n) (c q : F) (i j : 'I_n) : T i j = q ->
  c * q = @mget (exactO f1 f2 f3) _ _ (@mscale (exactO f1 f2 f3) _ _ c (@block_diag (exactO f1 f2 f3) n 1 T)) i j.
Proof.
move=> cell; have L := @exact_get_laws F f1 f2 f3.
have hi : (i < n * 1)%N by rewrite muln1. have hj : (j < n * 1)%N by rewrite muln1.
rewrite (proj2 (proj2 (proj2 L))); [|by apply/ssrnat.ltP..].
congr (_ * _); rewrite -cell.
have := @block_diag_get (exactO f1 f2 f3) L n 1 T 0 0 i j (PeanoNat.Nat.lt_0_1) (PeanoNat.Nat.lt_0_1) (@ssrnat.ltP _ _ (ltn_ord i)) (@ssrnat.ltP _ _ (ltn_ord j)).
by rewrite [in RHS]/= mx_getE => <-.
Qed.
(** For the kinematic model it returns kinematic_state_transition and the matrix of
    Q_continuous_white_noise with spectral density g^2. *)
Theorem C42_van_loan_kinematic : forall (F : realFieldType) (fsqrt fexp flog : F -> F) order expm (g dt : F),
  expm_ok expm ->
  let O := exactO fsqrt fexp flog in
  let r := van_loan_discretization (o := O) expm (shift F order.+1) (drive order g) dt in
  r.1 = kst (o := O) order dt /\
  ((1 <= order <= 3)%N -> forall Q, @q_continuous_white_noise O order.+1 dt (g ^+ 2) 1 true = Ok Q ->
    forall i j : 'I_(order.+1), (r.2 : 'M[F]_(order.+1)) i j = mget (Q : M O _ _) i j).
Proof.
move=> F f1 f2 f3 order expm g dt ex O r.
have [e1 e2] := @C42_van_loan F f1 f2 f3 _ _ expm (shift F order.+1) (drive order g) dt order.+1 ex (leqnn _) (shift_nil _ _).
rewrite -/r in e1 e2; split.
- rewrite e1 {e1 e2 r}; have := @kstE F f1 f2 f3 order dt; move: (kst (o := O) order dt) => T E.
  apply/matrixP => i j; rewrite (E i j) /exp_series summxE /taylor.
  case: leqP => hij.
  + have h : (j - i < order.+1)%N by apply: leq_ltn_trans (leq_subr _ _) _.
    rewrite (bigD1 (Ordinal h)) //= mxE mxpowZ mxE shift_pow addnC subnK // eqxx mulr1 mulrC big1 ?addr0 // => k hk.
    rewrite mxE mxpowZ mxE shift_pow; case: eqP => [e|_]; last by rewrite !mulr0.
    by case/eqP: hk; apply: val_inj; rewrite /= e addKn.
  + rewrite big1 // => k _; rewrite mxE mxpowZ mxE shift_pow; case: eqP => [e|_]; last by rewrite !mulr0.
    by move: hij; rewrite e ltnNge leq_addr.
- move=> ho Q hQ i j; rewrite e2 {e1 e2 r}.
  transitivity (g ^+ 2 * qc order dt i j).
    rewrite summxE; under eq_bigr => p _.
      rewrite summxE; under eq_bigr => q _.
        rewrite mxE mulmxA -mulmxA -trmx_mul mxE big_ord1 [in X in _ * (_ * X)]mxE !shift_drive; over.
      over.
    have hi : (order - i < order.+1)%N by rewrite ltnS leq_subr.
    have hj : (order - j < order.+1)%N by rewrite ltnS leq_subr.
    have ei (k : 'I_order.+1) (p : 'I_order.+1) : (k + p == order)%N = (p == order - k :> nat)%N.
      have hk : (k <= order)%N by rewrite -ltnS.
      by apply/eqP/eqP => [e|->]; rewrite ?subnKC // -(addKn k p) e.
    have hi' : (i <= order)%N by rewrite -ltnS. have hj' : (j <= order)%N by rewrite -ltnS.
    rewrite (bigD1 (Ordinal hi)) //= (bigD1 (Ordinal hj)) //= !subnKC // !eqxx !mulr1.
    rewrite big1 ?addr0; last first.
      move=> q hq; rewrite ei; case: eqP => [e|_]; [by case/eqP: hq; apply: val_inj|by rewrite !mulr0].
    rewrite big1 ?addr0; last first.
      move=> p hp; apply: big1 => q _; rewrite ei; case: eqP => [e|_]; [by case/eqP: hp; apply: val_inj|by rewrite mulr0 mul0r mulr0].
    by rewrite /qc expr2 mulrC.
  move: hQ; rewrite /q_continuous_white_noise.
  have -> : negb (Nat.eqb order.+1 2 || Nat.eqb order.+1 3 || Nat.eqb order.+1 4) = false by exact: ord_ok.
  move=> h; have {h} <- := Ok_inj h.
  rewrite /O.
  exact (@vl_cell F f1 f2 f3 order.+1 _ (g ^+ 2) _ i j (@cont_table F f1 f2 f3 order dt i j ho)).
Qed.
Print Assumptions C42_van_loan_kinematic.
Example C42_van_loan_kinematic_applies (F : realFieldType) n : expm_ok (@nil_expm F n).
Proof. exact: nil_expm_ok. Qed.
(** and the second conclusion is about matrices that exist *)
Example C42_van_loan_kinematic_applies2 (F : realFieldType) (fsqrt fexp flog : F -> F) (dt sd : F) :
  exists Q, @q_continuous_white_noise (exactO fsqrt fexp flog) 3 dt sd 1 true = Ok Q.
Proof. by eexists. Qed.

(** ** C48.  inv_diagonal: the diagonal matrix of reciprocals of the diagonal, whatever the other
    entries are; so the inverse of a diagonal matrix without zero on the diagonal. *)
Theorem C48_inv_diagonal : forall (F : realFieldType) (fsqrt fexp flog : F -> F) n (S : 'M[F]_n),
  inv_diagonal (o := exactO fsqrt fexp flog) (S : M (exactO fsqrt fexp flog) n n) = Ok (diag_mx (\row_i (S i i)^-1)) /\
  ((forall i j, i != j -> S i j = 0) -> (forall i, S i i != 0) ->
   S *m diag_mx (\row_i (S i i)^-1) = 1%:M /\ diag_mx (\row_i (S i i)^-1) *m S = 1%:M).
Proof.
move=> F f1 f2 f3 n S; split; last first.
  move=> hd h0; split; apply/matrixP => i j; rewrite ?mul_mx_diag ?mul_diag_mx !mxE.
    by case: (eqVneq i j) => [->|ne]; [rewrite mulfV|rewrite (hd _ _ ne) mul0r].
  by case: (eqVneq i j) => [->|ne]; [rewrite mulVf|rewrite (hd _ _ ne) mulr0].
have [A e] : exists A : 'M[F]_n, inv_diagonal (o := exactO f1 f2 f3) (S : M (exactO f1 f2 f3) n n) = Ok A.
  by rewrite /inv_diagonal PeanoNat.Nat.eqb_refl; eexists.
rewrite e; congr Ok; apply/matrixP => i j.
have [A' []] := @inv_diagonal_get _ (@exact_get_laws F f1 f2 f3) n S i j (@ssrnat.ltP _ _ (ltn_ord i)) (@ssrnat.ltP _ _ (ltn_ord j)).
rewrite e => -[<-]; rewrite /= mx_getE eqbE => ->; rewrite mx_getE !mxE val_eqE.
by case: eqP => // _; rewrite mul1r.
Qed.
Print Assumptions C48_inv_diagonal.
Example C48_example (F : realFieldType) :
  (forall i j : 'I_2, i != j -> (2%:R%:M : 'M[F]_2) i j = 0) /\ (forall i, (2%:R%:M : 'M[F]_2) i i != 0).
Proof. by split=> [i j|i]; rewrite !mxE ?eqxx ?pnatr_eq0 // => /negbTE ->. Qed.

(** A non-square array raises ValueError, in any arithmetic. *)
Theorem C48_inv_diagonal_rejects : forall (o : nops) (p q : nat) (S : M o p q), p <> q -> inv_diagonal S = Err ValueError.
Proof. by move=> o p q S h; rewrite /inv_diagonal (proj2 (PeanoNat.Nat.eqb_neq p q) h). Qed.
Print Assumptions C48_inv_diagonal_rejects.

(** outer_product_sum(A, B) is the sum over the rows of A and B of their outer products, A^T B. *)
Theorem C48_outer_product_sum : forall (F : realFieldType) (fsqrt fexp flog : F -> F) r p q (A : 'M[F]_(r, p)) (B : 'M[F]_(r, q)),
  let S : 'M[F]_(p, q) := outer_product_sum (o := exactO fsqrt fexp flog) A B in
  S = \sum_(i < r) (matrix.row i A)^T *m matrix.row i B /\ S = A^T *m B.
Proof.
move=> F f1 f2 f3 r p q A B S.
have E : S = A^T *m B.
  apply/matrixP => j k; rewrite /S /outer_product_sum !mxE.
  transitivity (\sum_(0 <= i < r) mx_get A i j * mx_get B i k); last first.
    by rewrite big_mkord; apply: eq_bigr => i _; rewrite !mx_getE mxE.
  have K s a n : List.fold_left (fun a i => a + mx_get A i j * mx_get B i k) (List.seq s n) a = a + \sum_(s <= i < s + n) mx_get A i j * mx_get B i k.
    elim: n s a => [|n IH] s a; first by rewrite addn0 big_geq ?addr0.
    by rewrite /= IH addSnnS [in RHS]big_ltn ?addrA // -[X in (X < _)%N]addn0 ltn_add2l.
  by have := K 0%N 0 r; rewrite add0r add0n.
split=> //; rewrite E; apply/matrixP => j k; rewrite mxE summxE; apply: eq_bigr => i _.
by rewrite !mxE big_ord1 !mxE.
Qed.
Print Assumptions C48_outer_product_sum.
