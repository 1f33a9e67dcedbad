(** * C66: linear_ode_discretation ("not sure what this does"): what it returns, exact arithmetic. *)
From Coq Require Import ZArith QArith.
From mathcomp Require Import all_ssreflect all_algebra.
From Verif Require Import Ops Exact Spec ZmodTac FieldTac LinAlg Model_KF Model_Common Proof_Common Prop_Kin Proof_Disc Prop_VanLoan Model_Ode.
Set Implicit Arguments.
Unset Strict Implicit.
Unset Printing Implicit Defensive.
Import Order.TTheory GRing.Theory Num.Theory.
Local Close Scope Q_scope.
Local Close Scope Z_scope.
Local Open Scope ring_scope.

Section V.
Variable F : realFieldType.
Add Field fldO : (fF_theory F).

(** The series of exp(F s) W exp(F s)^T integrated over [0, dt], term by term. *)
Definition int_series n (A W : 'M[F]_n) dt N : 'M[F]_n :=
  \sum_(p < N) \sum_(j < N) (dt ^+ (p + j).+1 / (p`! * j`! * (p + j).+1)%N%:R) *: (mxpow A p *m W *m (mxpow A j)^T).

Lemma sgn_cancel (x y z w : F) : y * y = 1 -> x * (y * w) * (z * y) = x * (z * w).
Proof. by move=> s1; transitivity ((y * y) * (x * (z * w))); [toF; ring|rewrite s1 mul1r]. Qed.

Definition gterm n (A W : 'M[F]_n) dt a j : 'M[F]_n :=
  ((a + j).+1`!%:R^-1 * ((-1) ^+ a * dt ^+ (a + j).+1)) *: (mxpow A a *m W *m (mxpow A j)^T).

Lemma vl_core n (A W : 'M[F]_n) dt N : mxpow A N = 0 ->
  exp_series (dt *: A) N *m (\sum_(a < N) \sum_(j < N) gterm A W dt a j) = int_series A W dt N.
Proof.
move=> nil; rewrite /int_series exchange_big /= mulmx_sumr [RHS]exchange_big /=; apply: eq_bigr => j _.
pose h m a : 'M[F]_n := ((m`!%:R^-1 * dt ^+ m) * ((a + j).+1`!%:R^-1 * ((-1) ^+ a * dt ^+ (a + j).+1))) *: (mxpow A (m + a) *m W *m (mxpow A j)^T).
transitivity (\sum_(m < N) \sum_(a < N) h m a).
  rewrite /exp_series mulmx_suml; apply: eq_bigr => m _; rewrite mulmx_sumr; apply: eq_bigr => a _.
  by rewrite /gterm /h mxpowZ scalerA -scalemxAl -scalemxAr scalerA mxpowD !mulmxA.
rewrite sq_tri; last by move=> m a hm; rewrite /h (mxpow_ge nil hm) !mul0mx scaler0.
apply: eq_bigr => p _; rewrite -coef mulr_sumr scaler_suml; apply: eq_bigr => a _; rewrite /h.
have ha : (a <= p)%N by rewrite -ltnS.
rewrite subnK //; congr (_ *: _).
have -> : dt ^+ (p + j).+1 = dt ^+ (p - a) * dt ^+ (a + j).+1 by rewrite -exprD addnS addnA subnK.
move: (fact_neq0 F (p - a)) (fact_neq0 F (a + j).+1).
move: (_ ^+ a) ((p - a)`!%:R) ((a + j).+1`!%:R) (dt ^+ (p - a)) (dt ^+ (a + j).+1) => u v w x y hv hw.
by rewrite invfM; move: (v^-1) (w^-1) => v' w'; toF; ring.
Qed.

Lemma ur_core n (A W : 'M[F]_n) dt N : mxpow A N = 0 ->
  ursubmx (exp_series (block_mx (- (dt *: A)) (dt *: W) 0 (dt *: A)^T) (N + N)) = \sum_(a < N) \sum_(j < N) gterm A W dt a j.
Proof.
move=> nil.
have gz a j : (N <= a)%N || (N <= j)%N -> gterm A W dt a j = 0.
  by rewrite /gterm; case/orP => h; rewrite (mxpow_ge nil h) ?trmx0 ?mulmx0 ?mul0mx scaler0.
have pn l : mxpow (- (dt *: A)) l = ((-1) ^+ l * dt ^+ l) *: mxpow A l by rewrite -scaleN1r scalerA mxpowZ exprMn.
have pt l : mxpow (dt *: A)^T l = dt ^+ l *: (mxpow A l)^T by rewrite mxpowT mxpowZ; apply/matrixP => a b; rewrite !mxE.
rewrite /exp_series (proj2 (submx_sum _)).
transitivity (\sum_(k < N + N) \sum_(i < k) gterm A W dt (k.-1 - i)%N i).
  apply: eq_bigr => i _; rewrite blockpow scale_block_mx block_mxKur scaler_sumr; apply: eq_bigr => j _.
  have hi : ((i.-1 - j + j).+1 = i)%N by case: (nat_of_ord i) j => [[]//|i'] j /=; rewrite subnK // -ltnS.
  rewrite /gterm hi pn pt -!scalemxAr -!scalemxAl !scalerA; congr (_ *: _).
  have -> : dt ^+ i = dt * (dt ^+ (i.-1 - j) * dt ^+ j) by rewrite -exprD -exprS hi.
  by move: (_^-1) ((-1) ^+ _) (dt ^+ _) (dt ^+ _) => u v w x; toF; ring.
case: (N) gz {nil} => [|N'] gz; first by rewrite !big_ord0.
rewrite addnS big_ord_recl big_ord0 add0r.
rewrite (eq_bigr (fun k : 'I_(N'.+1 + N') => \sum_(i < k.+1) gterm A W dt (k - i)%N i)); last by move=> q _.
rewrite -sq_tri; last first.
  move=> a j h; apply: gz; case: ltnP => //= ha; case: ltnP => //= hj.
  by move: h; rewrite leqNgt addSn ltnS (leq_add ha hj).
rewrite (@trim _ (fun a => \sum_(j < N'.+1 + N') gterm A W dt a j) N'.+1) ?leq_addr //; last first.
  by move=> a ha; rewrite big1 // => j _; rewrite gz // ha.
by apply: eq_bigr => a _; rewrite (@trim _ (gterm A W dt a) N'.+1) ?leq_addr // => j hj; rewrite gz // hj orbT.
Qed.

(** exp(X) exp(-X) = 1 for nilpotent X. *)
Lemma exp_inv n (X : 'M[F]_n) N : mxpow X N = 0 -> exp_series X N *m exp_series (- X) N = 1%:M.
Proof.
case: N => [|N] nil.
  have e : (1%:M : 'M[F]_n) = 0 by exact: nil. by rewrite -[LHS]mulmx1 e mulmx0.
rewrite /exp_series mulmx_suml.
pose g m i : 'M[F]_n := (m`!%:R^-1 * (i`!%:R^-1 * (-1) ^+ i)) *: mxpow X (m + i).
transitivity (\sum_(m < N.+1) \sum_(i < N.+1) g m i).
  apply: eq_bigr => m _; rewrite mulmx_sumr; apply: eq_bigr => i _.
  by rewrite /g -scaleN1r mxpowZ scalerA -scalemxAl -scalemxAr scalerA mxpowD.
rewrite sq_tri; last by move=> m i h; rewrite /g (mxpow_ge nil h) scaler0.
rewrite big_ord_recl [X in _ + X]big1 ?addr0; first rewrite big_ord_recl big_ord0 addr0.
  by rewrite /g /= subn0 fact0 invr1 expr0 !mul1r scale1r.
move=> p _; rewrite lift0.
transitivity ((\sum_(i < p.+2) (-1) ^+ i * 'C(p.+1, p.+1 - i)%:R) *: ((p.+1`!%:R^-1) *: mxpow X p.+1)).
  rewrite scaler_suml; apply: eq_bigr => i _; have hi : (i <= p.+1)%N by rewrite -ltnS.
  rewrite /g subnK // scalerA; congr (_ *: _).
  have h := bin_fact (leq_subr i p.+1); rewrite subKn // in h.
  have h0 : 'C(p.+1, p.+1 - i)%:R != 0 :> F by rewrite pnatr_eq0 -lt0n bin_gt0 leq_subr.
  rewrite -[in RHS]h !natrM !invfM; move: (divff h0) ((-1) ^+ i) ((p.+1 - i)`!%:R^-1) (i`!%:R^-1).
  move: ('C(p.+1, p.+1 - i)%:R) ('C(p.+1, p.+1 - i)%:R^-1) => u u' e x y z.
  by transitivity ((u * u') * (x * (y * z))); [rewrite e mul1r|]; toF; ring.
by rewrite alt_bin bin_small // scale0r.
Qed.
End V.

Section W.
Variables (F : realFieldType) (fsqrt fexp flog : F -> F).
Notation EO := (exactO fsqrt fexp flog).

Lemma zo_cols n (B : 'M[F]_(n + n)) :
  B *m (\matrix_(i < n + n, j < n) (if Nat.ltb i n then 0 else mx_get (1%:M : 'M[F]_n) (i - n) j)) = col_mx (ursubmx B) (drsubmx B).
Proof.
have -> : (\matrix_(i < n + n, j < n) (if Nat.ltb i n then 0 else mx_get (1%:M : 'M[F]_n) (i - n) j)) = col_mx 0 1%:M.
  apply/matrixP => i j; rewrite mxE ltbE; case: (ord_cases i) => i'.
  - by rewrite col_mxEu [in RHS]mxE /= ltn_ord.
  - by rewrite col_mxEd /= ltnNge leq_addr /= addKn mx_getE.
by rewrite -{1}[B]submxK mul_block_col !mulmx0 !mulmx1 !add0r.
Qed.
Lemma slice_u n (B : 'M[F]_(n + n, n)) : mslice (o := EO) B 0 0 n n = usubmx B.
Proof. by apply/matrixP => i j; rewrite /mslice !mxE ?plusE !add0n; exact: (mx_getE B (lshift n i) j). Qed.
Lemma slice_d n (B : 'M[F]_(n + n, n)) : mslice (o := EO) B n 0 n n = dsubmx B.
Proof. by apply/matrixP => i j; rewrite /mslice !mxE ?plusE add0n; exact: (mx_getE B (rshift n i) j). Qed.
End W.

(** For a nilpotent F of any size, any L, Q and dt, and an expm that is the exponential series on nilpotent
    matrices: inv never fails, and the pair returned is exp(F dt) and the integral over [0, dt] of exp(F s) L Q L^T
    exp(F s)^T ds (as its finite series), the transition matrix and process noise of x' = F x + L w with white noise w
    of spectral density Q. *)
Theorem C66_is_discretization : forall (F : realFieldType) (fsqrt fexp flog : F -> F) n k
    (expm : forall p, 'M[F]_p -> 'M[F]_p) (A : 'M[F]_n) (L : 'M[F]_(n, k)) (Q : 'M[F]_k) dt N,
  (forall p, expm_ok (@expm p)) -> (N <= n)%N -> mxpow A N = 0 ->
  @linear_ode_core (exactO fsqrt fexp flog) expm (@mx_inv F) n k A L Q dt =
  Ok (exp_series (dt *: A) N : 'M[F]_n,
      \sum_(p < N) \sum_(j < N) (dt ^+ (p + j).+1 / (p`! * j`! * (p + j).+1)%N%:R) *: (mxpow A p *m (L *m Q *m L^T) *m (mxpow A j)^T) : 'M[F]_n).
Proof.
move=> F f1 f2 f3 n k expm A L Q dt N ex le nil.
pose W := L *m Q *m L^T; rewrite -/W.
have tz (X : 'M[F]_n) : (dt *: X)^T = dt *: X^T by apply/matrixP => a b; rewrite !mxE.
have nilN : mxpow (- A) N = 0 by rewrite -scaleN1r mxpowZ nil scaler0.
pose Bk := block_mx (- (dt *: - A)) (dt *: W) 0 (dt *: - A)^T.
have EA : expm _ Bk = exp_series Bk (N + N).
  apply: ex; first exact: leq_add. rewrite blockpow.
  have e1 : mxpow (- (dt *: - A)) (N + N) = 0 by rewrite scalerN opprK mxpowZ (mxpow_ge nil) ?leq_addr // !scaler0.
  have e2 : mxpow (dt *: - A)^T (N + N) = 0 by rewrite mxpowT mxpowZ (mxpow_ge nilN) ?leq_addr // scaler0 trmx0.
  rewrite e1 e2 big1 ?block_mx0 ?block_mx_eq0 //; last first.
  move=> i _; case: (leqP N i) => hi.
    by rewrite mxpowT mxpowZ (mxpow_ge nilN) // scaler0 trmx0 mulmx0.
  by rewrite scalerN opprK mxpowZ (mxpow_ge nil (half_le hi)) !scaler0 !mul0mx.
have E1 : expm _ (dt *: A) = exp_series (dt *: A) N by apply: ex => //; rewrite mxpowZ nil scaler0.
have dr : drsubmx (exp_series Bk (N + N)) = (exp_series (- (dt *: A)) N)^T.
  rewrite /exp_series (proj1 (submx_sum _)) linear_sum (@trim _ (fun i => drsubmx (i`!%:R^-1 *: mxpow Bk i)) N) ?leq_addr //; last first.
    move=> i hi; rewrite blockpow scale_block_mx block_mxKdr mxpowT mxpowZ (mxpow_ge nilN) //.
    by rewrite scaler0 trmx0 scaler0.
  by apply: eq_bigr => i _; rewrite blockpow scale_block_mx block_mxKdr mxpowT linearZ /= scalerN.
have ur := ur_core W dt nilN; rewrite -/Bk in ur.
have nilD : mxpow (dt *: A) N = 0 by rewrite mxpowZ nil scaler0.
have I1 := exp_inv nilD.
have [U UI] : drsubmx (exp_series Bk (N + N)) \in unitmx /\ invmx (drsubmx (exp_series Bk (N + N))) = (exp_series (dt *: A) N)^T.
  have e : drsubmx (exp_series Bk (N + N)) *m (exp_series (dt *: A) N)^T = 1%:M by rewrite dr -trmx_mul I1 trmx1.
  have [h _] := mulmx1_unit e; split=> //.
  by rewrite -[RHS](mulKmx h) e mulmx1.
rewrite /linear_ode_core slice_d slice_u vl_block.
set CD := mdot _ _.
have {CD}-> : CD = col_mx (ursubmx (exp_series Bk (N + N))) (drsubmx (exp_series Bk (N + N))).
  rewrite -EA -zo_cols /CD /=; congr (expm _ _ *m _).
  by rewrite /Bk scale_block_mx scaler0 scalerN opprK linearN /= tz scaleN1r scalerN.
rewrite col_mxKu col_mxKd /mx_inv U UI ur [expm n _]E1; congr (Ok (_, _)).
transitivity ((exp_series (dt *: A) N *m (\sum_(a < N) \sum_(j < N) gterm (- A) W dt a j)^T)^T).
  by rewrite trmx_mul trmxK.
have -> : (\sum_(a < N) \sum_(j < N) gterm (- A) W dt a j)^T = \sum_(a < N) \sum_(j < N) gterm A W^T dt a j.
  rewrite [RHS]exchange_big linear_sum; apply: eq_bigr => a _; rewrite linear_sum; apply: eq_bigr => j _.
  rewrite /gterm linearZ /= !trmx_mul trmxK -!scaleN1r !mxpowZ addnC mulmxA.
  rewrite [(_ *: _)^T]linearZ /= -!scalemxAl -!scalemxAr !scalerA; congr (_ *: _).
  have s1 : (-1) ^+ a * (-1) ^+ a = 1 :> F by rewrite -exprMn mulrNN mulr1 expr1n.
  exact: sgn_cancel.
rewrite vl_core // /int_series exchange_big linear_sum; apply: eq_bigr => p _; rewrite linear_sum; apply: eq_bigr => j _.
by rewrite linearZ /= !trmx_mul !trmxK mulmxA addnC [(p`! * _)%N]mulnC.
Qed.
Print Assumptions C66_is_discretization.

(** So it agrees with van_loan_discretization (L Q L^T = G G^T), and with the default Q the noise is zero. *)
Theorem C66_agrees_with_van_loan : forall (F : realFieldType) (fsqrt fexp flog : F -> F) n k l
    (expm : forall p, 'M[F]_p -> 'M[F]_p) (A : 'M[F]_n) (L : 'M[F]_(n, k)) (Q : 'M[F]_k) (G : 'M[F]_(n, l)) dt N,
  (forall p, expm_ok (@expm p)) -> (N <= n)%N -> mxpow A N = 0 -> L *m Q *m L^T = G *m G^T ->
  @linear_ode_core (exactO fsqrt fexp flog) expm (@mx_inv F) n k A L Q dt =
  Ok (van_loan_discretization (o := exactO fsqrt fexp flog) (@expm (n + n)%N) A G dt).
Proof.
move=> F f1 f2 f3 n k l expm A L Q G dt N ex le nil e.
rewrite (@C66_is_discretization F f1 f2 f3 n k expm A L Q dt N) // e.
have [e1 e2] := @C42_van_loan F f1 f2 f3 n l _ A G dt N (ex _) le nil.
by rewrite [van_loan_discretization _ _ _ _]surjective_pairing e1 e2.
Qed.
Print Assumptions C66_agrees_with_van_loan.

Theorem C66_default_noise_is_zero : forall (F : realFieldType) (fsqrt fexp flog : F -> F) n
    (expm : forall p, 'M[F]_p -> 'M[F]_p) (A : 'M[F]_n) L dt N,
  (forall p, expm_ok (@expm p)) -> (N <= n)%N -> mxpow A N = 0 ->
  @linear_ode_discretation (exactO fsqrt fexp flog) expm (@mx_inv F) n A L None dt = Ok (exp_series (dt *: A) N : 'M[F]_n, 0 : 'M[F]_n).
Proof.
move=> F f1 f2 f3 n expm A L dt N ex le nil.
rewrite /linear_ode_discretation (@C66_is_discretization F f1 f2 f3 n n expm A _ _ dt N) //; congr (Ok (_, _)).
by apply: big1 => p _; apply: big1 => j _; rewrite /= mulmx0 mul0mx mulmx0 mul0mx scaler0.
Qed.
Print Assumptions C66_default_noise_is_zero.

(** A case that meets the hypotheses: the constant velocity model, F = ((0, 1), (0, 0)), L = Q = 1. *)
Example C66_applies (F : realFieldType) : mxpow (shift F 2) 2 = 0 /\ forall p, expm_ok (@nil_expm F p).
Proof. by split; [exact: shift_nil|move=> p; exact: nil_expm_ok]. Qed.
