(** * Kinematic models: C43, C44 (exact arithmetic over any real field). *)
From Coq Require Import ZArith QArith.
From mathcomp Require Import all_ssreflect all_algebra.
From Verif Require Import Ops Exact Spec ZmodTac FieldTac LinAlg Model_KF Model_Common Proof_Common.
Set Implicit Arguments.
Unset Strict Implicit.
Unset Printing Implicit Defensive.
Import Order.TTheory GRing.Theory Num.Theory.
Local Close Scope Q_scope.
Local Close Scope Z_scope.
Local Open Scope ring_scope.

Lemma eqbE (a b : nat) : Nat.eqb a b = (a == b).
Proof. by apply/idP/eqP => [/PeanoNat.Nat.eqb_eq|/PeanoNat.Nat.eqb_eq]. Qed.
Lemma lebE (a b : nat) : Nat.leb a b = (a <= b)%N.
Proof. by apply/idP/idP => [/PeanoNat.Nat.leb_le/ssrnat.leP|/ssrnat.leP/PeanoNat.Nat.leb_le]. Qed.
Lemma ltbE (a b : nat) : Nat.ltb a b = (a < b)%N.
Proof. by apply/idP/idP => [/PeanoNat.Nat.ltb_lt/ssrnat.ltP|/ssrnat.ltP/PeanoNat.Nat.ltb_lt]. Qed.
Lemma factorialE n : factorial n = n`!.
Proof. by elim: n => //= n ->; rewrite factS. Qed.

Section E.
Variables (F : realFieldType) (fsqrt fexp flog : F -> F).
Notation EO := (exactO fsqrt fexp flog).
Add Field fld : (fF_theory F).

Lemma exact_get_laws : get_laws EO.
Proof.
split; [|split; [|split]].
- by move=> m n f i j /ssrnat.ltP hi /ssrnat.ltP hj /=; rewrite (mx_getP _ hi hj) mxE.
- move=> m n i j /=; rewrite /mx_get; by do 2 case: insubP => // *; rewrite mxE.
- by move=> n i j /ssrnat.ltP hi /ssrnat.ltP hj /=; rewrite (mx_getP _ hi hj) mxE eqbE -val_eqE /=; case: (i == j).
- by move=> m n s A i j /ssrnat.ltP hi /ssrnat.ltP hj /=; rewrite !(mx_getP _ hi hj) mxE.
Qed.

Lemma spowE (x : F) n : spow EO x n = x ^+ n.
Proof. by elim: n => // -[|n] IH; rewrite ?expr1 //= -/(spow EO x n.+1) IH -exprS. Qed.

(** The Taylor coefficient dt^k / k!. *)
Definition taylor (dt : F) (k : nat) : F := dt ^+ k / (k`!)%:R.

Lemma fact_neq0 k : (k`!)%:R != 0 :> F.
Proof. by rewrite pnatr_eq0 -lt0n fact_gt0. Qed.

Lemma kstE order (dt : F) (i j : 'I_(order.+1)) :
  (kst (o := EO) order dt : 'M[F]_(order.+1)) i j = if (i <= j)%N then taylor dt (j - i) else 0.
Proof.
rewrite /taylor; case: order i j => [|[|[|k]]] i j.
- by rewrite mxE !ord1 /= expr0 divr1.
- rewrite mxE; case: i => [[|[|i]] hi] //; case: j => [[|[|j]] hj] //=; by rewrite ?expr0 ?expr1 divr1.
- rewrite mxE; case: i => [[|[|[|i]]] hi] //; case: j => [[|[|[|j]]] hj] //=; rewrite ?expr0 ?expr1 ?divr1 //.
  by rewrite expr2 mul1r -mulrA mulrC.
- have h : (@kst_loops EO k.+3 dt : 'M[F]_(k.+4)) i j = mget (@kst_loops EO k.+3 dt) i j by rewrite /= mx_getE.
  rewrite /kst h kst_loops_get; [|exact: exact_get_laws|apply/ssrnat.leP; rewrite -ltnS //..].
  by rewrite lebE spowE factorialE.
Qed.

Lemma taylorD (a b : F) n : \sum_(0 <= p < n.+1) taylor a p * taylor b (n - p) = taylor (a + b) n.
Proof.
rewrite /taylor [a + b]addrC exprDn mulr_suml big_mkord; apply: eq_bigr => p _.
have hp : (p <= n)%N by rewrite -ltnS.
have e : 'C(n, p)%:R = (n`!)%:R / ((p`!)%:R * ((n - p)`!)%:R) :> F.
  by rewrite -natrM -(bin_fact hp) natrM mulfK // natrM mulf_neq0 ?fact_neq0.
rewrite -[X in _ = X / _]mulr_natr e.
move: (a ^+ p) (b ^+ (n - p)) (fact_neq0 p) (fact_neq0 n) (fact_neq0 (n - p)).
move: (p`!)%:R (n`!)%:R ((n - p)`!)%:R => u v w x y /eqP hu /eqP hv /eqP hw; toF; field.
by [].
Qed.

Local Opaque kst.
Lemma kstD order (a b : F) :
  (kst (o := EO) order a : 'M[F]_(order.+1)) *m kst (o := EO) order b = kst (o := EO) order (a + b).
Proof.
have := kstE (order := order) (a + b); have := kstE (order := order) b; have := kstE (order := order) a.
move: (kst (o := EO) order a) (kst (o := EO) order b) (kst (o := EO) order (a + b)) => A B C Ea Eb Ec.
apply/matrixP => i j; rewrite [LHS]mxE Ec.
pose f k := (if (i <= k)%N then taylor a (k - i) else 0) * (if (k <= j)%N then taylor b (j - k) else 0).
transitivity (\sum_(k < order.+1) f k).
  by apply: eq_bigr => k _; rewrite Ea Eb.
rewrite -(big_mkord xpredT f).
case: leqP => hij; last first.
  rewrite big1 // => k _; rewrite /f; case: leqP => h1; last by rewrite mul0r.
  by case: leqP => h2; [have := leq_trans h1 h2; rewrite leqNgt hij | rewrite mulr0].
have hj : (j < order.+1)%N := ltn_ord j.
rewrite (@big_cat_nat _ _ _ i) //=; last exact: ltnW (leq_ltn_trans hij hj).
rewrite [X in X + _]big_nat_cond big1 ?add0r; last first.
  by move=> k /andP[/andP[_ hk] _]; rewrite /f leqNgt hk mul0r.
rewrite (@big_cat_nat _ _ _ j.+1) //=; last exact: leqW.
rewrite [X in _ + X]big_nat_cond [X in _ + X]big1 ?addr0; last first.
  by move=> k /andP[/andP[hk _] _]; rewrite /f [(k <= j)%N]leqNgt hk mulr0.
rewrite -{1}[nat_of_ord i]add0n big_addn -taylorD subSn //.
rewrite !big_mkord; apply: eq_bigr => p _; rewrite /f leq_addl addnK.
have hp : (p <= j - i)%N by rewrite -ltnS.
have e2 : (p + i <= j)%N by rewrite addnC -leq_subRL //.
by rewrite e2 addnC subnDA.
Qed.

Lemma kst0 order : kst (o := EO) order (0 : F) = 1%:M :> 'M[F]_(order.+1).
Proof.
have := kstE (order := order) 0; move: (kst (o := EO) order 0) => A Ea.
apply/matrixP => i j; rewrite Ea !mxE /taylor -val_eqE.
case: (ltngtP i j) => h.
- by rewrite expr0n subn_eq0 leqNgt h mul0r.
- by [].
- by rewrite h subnn expr0 divr1.
Qed.
End E.

(** ** C43.  Entries; the group law F(a) F(b) = F(a+b); F(0) = I; inverse F(-dt). *)
Theorem C43_transition_group : forall (F : realFieldType) (fsqrt fexp flog : F -> F) (order : nat) (a b : F),
  let T t := kst (o := exactO fsqrt fexp flog) order t : 'M[F]_(order.+1) in
  (forall (i j : 'I_(order.+1)), T a i j = if (i <= j)%N then a ^+ (j - i) / ((j - i)`!)%:R else 0) /\
  [/\ T 0 = 1%:M, T a *m T b = T (a + b), T a \in unitmx & invmx (T a) = T (- a)].
Proof.
move=> F f1 f2 f3 order a b T; split; first exact: kstE.
have e : T a *m T (- a) = 1%:M by rewrite /T kstD subrr kst0.
have u : T a \in unitmx := proj1 (mulmx1_unit e).
split; [exact: kst0|exact: kstD|exact: u|].
move: e u; move: (T a) (T (- a)) => A B e u.
by rewrite -[LHS]mulmx1 -e mulKmx.
Qed.
Print Assumptions C43_transition_group.

(** It moves the derivatives of a polynomial trajectory: for p of degree <= order, the vector of
    derivatives of p at t is taken to the one at t + dt. *)
Theorem C43_moves_polynomials : forall (F : realFieldType) (fsqrt fexp flog : F -> F) (order : nat) (dt t : F) (p : {poly F}),
  (size p <= order.+1)%N ->
  let state s : 'cV[F]_(order.+1) := \col_i (p^`(i)).[s] in
  (kst (o := exactO fsqrt fexp flog) order dt : 'M[F]_(order.+1)) *m state t = state (t + dt).
Proof.
move=> F f1 f2 f3 order dt t p sp state; have := kstE f1 f2 f3 (order := order) dt; move: (kst _ _) => A Ea.
apply/matrixP => i j; rewrite !mxE.
rewrite (eq_bigr (fun k : 'I_(order.+1) => (if (i <= k)%N then taylor dt (k - i) else 0) * (p^`(k)).[t])); last first.
  by move=> k _; rewrite Ea !mxE.
have hi : (i <= order.+1)%N := ltnW (ltn_ord i).
pose f k := (if (i <= k)%N then taylor dt (k - i) else 0) * (p^`(k)).[t].
rewrite -(big_mkord xpredT f) (@big_cat_nat _ _ _ i) //=.
rewrite [X in X + _]big_nat_cond big1 ?add0r; last first.
  by move=> k /andP[/andP[_ hk] _]; rewrite /f leqNgt hk mul0r.
rewrite -{1}[nat_of_ord i]add0n big_addn.
rewrite (@nderiv_taylor_wide _ (order.+1 - i) p^`(i) t dt); [|exact: mulrC|]; last first.
  apply/leq_sizeP => k hk; rewrite coef_derivn nth_default ?mul0rn //.
  by apply: (leq_trans sp); rewrite -leq_subLR.
rewrite big_mkord; apply: eq_bigr => k _; rewrite /f leq_addl addnK.
have -> : p^`(k + i) = (p^`(i))^`(k) by rewrite /derivn iterD.
rewrite nderivn_def hornerMn /taylor; move: (_).[t] => v.
by rewrite -[v *+ _]mulr_natr -mulrA [_^-1 * _]mulrC mulfK ?fact_neq0 // mulrC.
Qed.
Print Assumptions C43_moves_polynomials.

(** ** C44.  The state vector of kinematic_kf holds, for each dimension d < dim, the derivatives
    r = 0..order; [idx] is the documented position of derivative r of dimension d: all
    derivatives of a dimension together, or all dimensions of a derivative together. *)
Definition idx (order_by_dim : bool) (dim order d r : nat) : nat :=
  if order_by_dim then (d * order.+1 + r)%N else (r * dim + d)%N.

Lemma idx_bound b dim order d r : (d < dim)%N -> (r <= order)%N -> (idx b dim order d r < order.+1 * dim)%N.
Proof.
move=> /ssrnat.ltP hd hr; have {}hr : (r < order.+1)%coq_nat by apply/ssrnat.ltP.
by apply/ssrnat.ltP; case: b; [exact: idx_lt'|exact: idx_lt].
Qed.

Section Sum.
Variables (V : zmodType).
Lemma sum_idx (f : nat -> V) n k : \sum_(i < n * k) f i = \sum_(r < n) \sum_(d < k) f (r * k + d)%N.
Proof.
elim: n => [|n IH]; first by rewrite !big_ord0.
rewrite big_ord_recr /= -IH -!(big_mkord xpredT f) mulSn addnC (@big_cat_nat _ _ _ (n * k)) ?leq_addr //=.
congr (_ + _); rewrite -{1}[(n * k)%N]add0n big_addn [(n * k + k)%N]addnC addnK big_mkord.
by apply: eq_bigr => d _; rewrite addnC.
Qed.
Lemma sum_idx2 (f : nat -> V) b n k : \sum_(i < n.+1 * k) f i = \sum_(d < k) \sum_(r < n.+1) f (idx b k n d r).
Proof.
case: b; rewrite /idx; last by rewrite exchange_big /= sum_idx.
by rewrite mulnC sum_idx.
Qed.
End Sum.

Section Kin.
Variables (F : realFieldType) (fsqrt fexp flog : F -> F).
Notation EO := (exactO fsqrt fexp flog).
Variables (dim order dim_z l : nat) (dt : F) (b : bool) (k : kf EO (order.+1 * dim) dim_z l).
Notation kin := (@kinematic_kf EO dim order dim_z l dt b k).
Notation ix := (idx b dim order).

Lemma kin_F d d' r r' : (d < dim)%N -> (d' < dim)%N -> (r <= order)%N -> (r' <= order)%N ->
  mx_get (kf_F kin : 'M[F]_(order.+1 * dim)) (ix d r) (ix d' r') =
  if d == d' then if (r <= r')%N then taylor dt (r' - r) else 0 else 0.
Proof.
move=> hd hd' hr hr'.
have E : mx_get (@kst EO order dt : 'M[F]_(order.+1)) r r' = if (r <= r')%N then taylor dt (r' - r) else 0.
  have hr1 : (r < order.+1)%N by []. have hr1' : (r' < order.+1)%N by [].
  by rewrite (mx_getP _ hr1 hr1') (kstE _ _ _ dt (Ordinal hr1) (Ordinal hr1')).
have [Hd Hd' Hr Hr'] : [/\ (d < dim)%coq_nat, (d' < dim)%coq_nat, (r < order.+1)%coq_nat & (r' < order.+1)%coq_nat].
  by split; apply/ssrnat.ltP.
rewrite /kinematic_kf /idx; case: (b) => /=.
- have := block_diag_get (@exact_get_laws F fsqrt fexp flog) (@kst EO order dt) Hd Hd' Hr Hr'.
  by rewrite eqbE -E => <-.
- have e := fill_blocks_get (@exact_get_laws F fsqrt fexp flog) (@kst EO order dt) (mzeros (order.+1 * dim) (order.+1 * dim)) Hd Hd' Hr Hr'.
  apply: (etrans e); rewrite eqbE -E; by case: (d == d'); rewrite /= ?mulr1 ?mulr0.
Qed.

Lemma mx_getM p q r' (A : 'M[F]_(p,q)) (B : 'M[F]_(q,r')) i j : (i < p)%N -> (j < r')%N ->
  mx_get (A *m B) i j = \sum_(s < q) mx_get A i s * mx_get B s j.
Proof.
move=> hi hj; rewrite (mx_getP _ hi hj) mxE; apply: eq_bigr => s _.
by rewrite -[i in RHS]/(nat_of_ord (Ordinal hi)) -[j in RHS]/(nat_of_ord (Ordinal hj)) !mx_getE.
Qed.

Lemma kin_step d r (x : 'cV[F]_(order.+1 * dim)) : (d < dim)%N -> (r <= order)%N ->
  mx_get ((kf_F kin : 'M[F]_(order.+1 * dim)) *m x) (ix d r) 0 =
  \sum_(s < order.+1) (if (r <= s)%N then taylor dt (s - r) else 0) * mx_get x (ix d s) 0.
Proof.
move=> hd hr; rewrite mx_getM //; last exact: idx_bound.
rewrite (sum_idx2 (fun c => mx_get (kf_F kin : 'M[F]_(order.+1 * dim)) (ix d r) c * mx_get x c 0) b).
rewrite (bigD1 (Ordinal hd)) //= [X in _ + X]big1 ?addr0; last first.
  move=> d' nd; rewrite big1 // => s _; rewrite kin_F // ?mul0r //; last by rewrite -ltnS.
  by case: eqP => [e|_]; [case/eqP: nd; apply: val_inj|rewrite mul0r].
by apply: eq_bigr => s _; rewrite kin_F ?eqxx // -ltnS.
Qed.

Lemma kin_H i c : (i < dim_z)%N -> (c < order.+1 * dim)%N ->
  mx_get (kf_H kin : 'M[F]_(dim_z, order.+1 * dim)) i c =
  if [exists d : 'I_dim, ix d 0 == c] then 1 else mx_get (kf_H k : 'M[F]_(dim_z, order.+1 * dim)) i c.
Proof.
move=> hi hc.
have hi' : (i < dim_z)%coq_nat by apply/ssrnat.ltP.
have hc' : (c < order.+1 * dim)%coq_nat by apply/ssrnat.ltP.
have -> : kf_H kin = List.fold_left (fun H i => List.fold_left (fun H j => mwrite H i
    (if b then (j * order.+1)%coq_nat else j) (mfun 1 1 (fun _ _ => s1 EO))) (List.seq 0 dim) H) (List.seq 0 dim_z) (kf_H k).
  by rewrite /kinematic_kf; case: (b).
have := h_loop_get (@exact_get_laws F fsqrt fexp flog) dim (fun j => if b then (j * order.+1)%coq_nat else j) (kf_H k) hi' hc'.
rewrite /= => ->; congr (if _ then _ else _).
apply/idP/existsP => [/List.existsb_exists [d [/List.in_seq [_ /ssrnat.ltP hd] e]]|[d e]].
- exists (Ordinal hd); move: e; rewrite eqbE /idx /=; case: (b); by rewrite ?addn0 ?mul0n ?add0n.
- apply/List.existsb_exists; exists d; split.
    by apply/List.in_seq; split; [exact: PeanoNat.Nat.le_0_l|apply/ssrnat.ltP].
  by move: e; rewrite eqbE /idx; case: (b); rewrite ?addn0 ?mul0n ?add0n.
Qed.
End Kin.

(** predict() moves every dimension by its own Taylor expansion; dimensions do not interact, in
    either ordering. *)
Theorem C44_predict : forall (F : realFieldType) (fsqrt fexp flog : F -> F) (dim order dim_z l : nat) (dt : F) (b : bool)
    (k : kf (exactO fsqrt fexp flog) (order.+1 * dim) dim_z l) (d r : nat),
  (d < dim)%N -> (r <= order)%N ->
  let k' := kf_predict None None None None (@kinematic_kf (exactO fsqrt fexp flog) dim order dim_z l dt b k) in
  mx_get (kf_x k' : 'cV[F]_(order.+1 * dim)) (idx b dim order d r) 0 =
  \sum_(s < order.+1) (if (r <= s)%N then dt ^+ (s - r) / ((s - r)`!)%:R else 0)
                      * mx_get (kf_x k : 'cV[F]_(order.+1 * dim)) (idx b dim order d s) 0.
Proof.
move=> F f1 f2 f3 dim order dim_z l dt b k d r hd hr k'.
have -> : kf_x k' = (kf_F (@kinematic_kf (exactO f1 f2 f3) dim order dim_z l dt b k) : 'M[F]_(order.+1 * dim)) *m kf_x k.
  by rewrite /k' /kf_predict /kinematic_kf /apply_control; case: (b); case: k {k'} => ? ? ? [B|].
exact: kin_step.
Qed.
Print Assumptions C44_predict.

(** A new filter's H: every row measures the sum of the positions of all dimensions; for dim = 1
    that is the position.  P, Q, R, x are the constructor's. *)
Theorem C44_measures_sum_of_positions : forall (F : realFieldType) (fsqrt fexp flog : F -> F) (dim order dim_z l : nat) (dt fmin : F) (b : bool)
    inv (x : 'cV[F]_(order.+1 * dim)) (i : nat), (i < dim_z)%N ->
  let k := @kinematic_kf (exactO fsqrt fexp flog) dim order dim_z l dt b (kf_init (o := exactO fsqrt fexp flog) (order.+1 * dim) dim_z l fmin inv) in
  mx_get ((kf_H k : 'M[F]_(dim_z, order.+1 * dim)) *m x) i 0 = \sum_(d < dim) mx_get x (idx b dim order d 0) 0 /\
  [/\ kf_x k = (0 : 'cV[F]_(order.+1 * dim)), kf_P k = (1%:M : 'M[F]_(order.+1 * dim)),
      kf_Q k = (1%:M : 'M[F]_(order.+1 * dim)) & kf_R k = (1%:M : 'M[F]_dim_z)].
Proof.
move=> F f1 f2 f3 dim order dim_z l dt fmin b inv x i hi k; split; last by rewrite /k /kinematic_kf; case: (b).
rewrite mx_getM //.
pose f c := (if [exists d : 'I_dim, idx b dim order d 0 == c] then 1 else 0) * mx_get x c 0.
rewrite (eq_bigr (fun c : 'I_(order.+1 * dim) => f c)); last first.
  by move=> c _; rewrite /f /k kin_H //; case: ifP => // _; congr (_ * _); exact: (proj1 (proj2 (@exact_get_laws F f1 f2 f3))).
rewrite (sum_idx2 f b); apply: eq_bigr => d _.
have inj (d' : 'I_dim) r : (r <= order)%N -> idx b dim order d' 0 = idx b dim order d r -> r = 0%N.
  rewrite /idx; case: (b) => hr e.
  - have := congr1 (modn^~ order.+1) e; by rewrite !modnMDl !modn_small.
  - have := congr1 (divn^~ dim) e; have h0 : (0 < dim)%N by case: dim {x k f e d} d' => // -[].
    by rewrite !divnMDl // !divn_small // !addn0.
rewrite big_ord_recl [X in _ + X]big1 ?addr0 /=; last first.
  move=> r _; rewrite /f; case: existsP => [[d' /eqP e]|_]; last by rewrite mul0r.
  by have := inj d' _ _ e; rewrite /bump /= add1n => /(_ (ltn_ord r)).
by rewrite /f; case: existsP => [_|[]]; [rewrite mul1r|exists d].
Qed.
Print Assumptions C44_measures_sum_of_positions.
