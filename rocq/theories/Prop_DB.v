(** * C31: the discrete Bayes filter. *)
From Coq Require Import ZArith Lia.
From mathcomp Require Import all_ssreflect all_algebra.
From Verif Require Import Ops Exact Proof_UKF Proof_MM Model_DB Spec_DB Proof_DB.
Set Implicit Arguments.
Unset Strict Implicit.
Unset Printing Implicit Defensive.
Import Order.TTheory GRing.Theory Num.Theory.
Local Open Scope ring_scope.
Delimit Scope Z_scope with coqZ.

Lemma half_sum (n m : nat) : (0 < n)%N -> (0 < m)%N -> odd n || odd m -> (n + m).-1./2 = (n./2 + m./2)%N.
Proof.
move=> /ssrnat.ltP n0 /ssrnat.ltP m0 od.
have := odd_double_half n; have := odd_double_half m; have := odd_double_half (n + m).-1.
move: od; rewrite -!muln2 -!plusE -!multE.
case: (odd n); case: (odd m); case: (odd _) => //= _; lia.
Qed.

Section Lemmas.
Variable F : realFieldType.
Variables (fsqrt fexp flog : F -> F).
Notation SO := (exactS fsqrt fexp flog).
Implicit Types (v p lik kern : seq F).

Lemma size_wrap v a kern c : size (db_predict (o := SO) v a kern true c) = size v.
Proof. by rewrite /db_predict /conv_wrap size_conv size_listlen size_roll. Qed.

Lemma wrapE v a kern c i : (i < size v)%N ->
  nth 0 (db_predict (o := SO) v a kern true c) i = \sum_(k < size kern) nth 0 kern k * per v (zn i - disp kern k - a)%coqZ.
Proof.
move=> hi; have n0 : (0 < size v)%N by case: (size v) hi.
rewrite /db_predict /conv_wrap convE ?size_listlen ?size_roll //.
apply: eq_bigr => k _; congr (_ * _); rewrite /zget lnth -(size_roll fsqrt fexp flog v a).
exact: rollE.
Qed.

Lemma wrap_perE v a kern c z : (0 < size v)%N ->
  per (db_predict (o := SO) v a kern true c) z = \sum_(k < size kern) nth 0 kern k * per v (z - disp kern k - a)%coqZ.
Proof.
move=> n0; apply: (per_tab (n := size v) (f := fun z => \sum_(k < size kern) nth 0 kern k * per v (z - disp kern k - a)%coqZ)) => //.
- exact: size_wrap.
- by move=> i hi; rewrite wrapE.
- move=> y; apply: eq_bigr => k _; congr (_ * _); rewrite -[RHS]per_periodic; congr (per v _); lia.
Qed.

Lemma ring_one v (b : Z) (i : nat) (c : F) : (i < size v)%N ->
  \sum_(j < size v) (if Z.eqb ((zn j + b) mod zn (size v))%coqZ (zn i) then nth 0 v j * c else 0) = c * per v (zn i - b)%coqZ.
Proof.
move=> /ssrnat.ltP hi; have npos : (0 < zn (size v))%coqZ by lia.
have hr := Z.mod_pos_bound (zn i - b) _ npos; set r := ((zn i - b) mod _)%coqZ in hr.
have hj : (Z.to_nat r < size v)%N by apply/ssrnat.ltP; lia.
have er := Z_div_mod_eq_full (zn i - b) (zn (size v)); rewrite -/r in er.
rewrite (bigD1 (Ordinal hj)) //= big1 ?addr0.
  rewrite Z2Nat.id; last lia.
  have -> : ((r + b) mod zn (size v))%coqZ = zn i.
    have -> : (r + b = zn i + (- ((zn i - b) / zn (size v))) * zn (size v))%coqZ by lia.
    by rewrite Z_mod_plus_full Z.mod_small //; lia.
  by rewrite Z.eqb_refl mulrC /per -/r.
move=> j nj; case: Z.eqb_spec => // e; case/eqP: nj; apply: val_inj => /=.
have := Z_div_mod_eq_full (zn j + b) (zn (size v)); rewrite e => ej.
have hjj : (zn j < zn (size v))%coqZ by (have /ssrnat.ltP := ltn_ord j); lia.
have -> : r = zn j; last by rewrite Nat2Z.id.
rewrite /r; have -> : (zn i - b = zn j + (- ((zn j + b) / zn (size v))) * zn (size v))%coqZ by lia.
by rewrite Z_mod_plus_full Z.mod_small //; lia.
Qed.

Lemma moved_ringE v a kern i : (i < size v)%N ->
  moved_ring v a kern i = \sum_(k < size kern) nth 0 kern k * per v (zn i - disp kern k - a)%coqZ.
Proof.
move=> hi; rewrite /moved_ring exchange_big; apply: eq_bigr => k _ /=.
rewrite -Z.sub_add_distr Z.add_comm -ring_one //; apply: eq_bigr => j _.
by rewrite Z.add_assoc.
Qed.
End Lemmas.

(** ** predict on a ring: the distribution of X + offset + noise, modulo the size. *)
Theorem C31_predict_wrap : forall (F : realFieldType) (fsqrt fexp flog : F -> F) (v kern : seq F) (offset : Z) (cval : F),
  db_predict (o := exactS fsqrt fexp flog) v offset kern true cval = mkseq (moved_ring v offset kern) (size v).
Proof.
move=> F fsqrt fexp flog v kern a c; apply: (@eq_from_nth F 0); first by rewrite size_wrap size_mkseq.
by move=> i; rewrite size_wrap => hi; rewrite nth_mkseq // wrapE // moved_ringE.
Qed.
Print Assumptions C31_predict_wrap.

(** The total is multiplied by the kernel's: predict maps distributions to distributions. *)
Theorem C31_wrap_mass : forall (F : realFieldType) (fsqrt fexp flog : F -> F) (v kern : seq F) (offset : Z) (cval : F),
  let w : seq F := db_predict (o := exactS fsqrt fexp flog) v offset kern true cval in
  \sum_(x <- w) x = (\sum_(x <- kern) x) * (\sum_(x <- v) x) /\ (dist v -> dist kern -> dist w).
Proof.
move=> F fsqrt fexp flog v kern a c w.
have sw : size w = size v by exact: size_wrap.
have S : \sum_(x <- w) x = (\sum_(x <- kern) x) * \sum_(x <- v) x.
  rewrite sum_nthE sw (eq_bigr (fun i : 'I__ => \sum_(k < size kern) nth 0 kern k * per v (zn i - disp kern k - a)%coqZ)); last first.
    by move=> i _; rewrite wrapE.
  rewrite exchange_big [X in X * _]sum_nthE big_distrl; apply: eq_bigr => k _ /=; rewrite -mulr_sumr; congr (_ * _).
  rewrite sum_nthE -(eq_bigr _ (fun (i : 'I_(size v)) _ => per_nat (ltn_ord i))) -(psum_shift (- (disp kern k + a)) (per_periodic v)).
  by apply: eq_bigr => i _; congr (per v _); lia.
split=> // -[v0 v1] [k0 k1]; split; last by rewrite S v1 k1 mulr1.
move=> i; case: (ltnP i (size w)) => hi; last by rewrite nth_default.
rewrite sw in hi; rewrite /w wrapE //; apply: sumr_ge0 => k _; apply: mulr_ge0 => //; exact: v0.
Qed.
Print Assumptions C31_wrap_mass.

(** Two moves are one: offsets add, the noises add.  (Two kernels of even length are off by one place.) *)
Theorem C31_wrap_compose : forall (F : realFieldType) (fsqrt fexp flog : F -> F) (v k1 k2 : seq F) (a b : Z) (c : F),
  (0 < size k1)%N -> (0 < size k2)%N -> odd (size k1) || odd (size k2) ->
  db_predict (o := exactS fsqrt fexp flog) (db_predict (o := exactS fsqrt fexp flog) v a k1 true c) b k2 true c =
  db_predict (o := exactS fsqrt fexp flog) v (a + b)%coqZ (kernel_sum k1 k2) true c.
Proof.
move=> F fsqrt fexp flog v k1 k2 a b c p1 p2 od.
apply: (@eq_from_nth F 0); first by rewrite !size_wrap.
move=> i; rewrite !size_wrap => hi; rewrite !wrapE ?size_wrap // size_mkseq.
have n0 : (0 < size v)%N by case: (size v) hi.
rewrite (eq_bigr (fun k : 'I__ => \sum_(j < size k1) nth 0 k2 k * (nth 0 k1 j * per v (zn i - disp k2 k - b - disp k1 j - a)%coqZ))); last first.
  by move=> k _; rewrite wrap_perE // mulr_sumr.
rewrite [RHS](eq_bigr (fun c : 'I__ => \sum_(x < size k1) \sum_(y < size k2)
   if (x + y == c)%N then nth 0 k1 x * nth 0 k2 y * per v (zn i - disp (kernel_sum k1 k2) c - (a + b))%coqZ else 0)); last first.
  move=> z _; rewrite nth_mkseq // mulr_suml; apply: eq_bigr => x _; rewrite mulr_suml; apply: eq_bigr => y _.
  by case: ifP; rewrite ?mul0r.
rewrite exchange_big /= [RHS]exchange_big; apply: eq_bigr => x _ /=; rewrite exchange_big; apply: eq_bigr => y _ /=.
have lt : (x + y < (size k1 + size k2).-1)%N.
  by have := ltn_ord x; have := ltn_ord y; move=> /ssrnat.ltP hy /ssrnat.ltP hx; apply/ssrnat.ltP; rewrite -!plusE; lia.
rewrite (bigD1 (Ordinal lt)) //= eqxx big1 ?addr0; last first.
  by move=> z nz; case: eqP => // e; case/eqP: nz; apply: val_inj.
rewrite mulrCA mulrA; congr (_ * per v _).
rewrite /disp size_mkseq.
have -> : ((size k1 + size k2).-1)./2 = ((size k1)./2 + (size k2)./2)%N.
  exact: half_sum.
move: ((size k1)./2) ((size k2)./2) (nat_of_ord x) (nat_of_ord y) => h g q r; rewrite -!plusE; lia.
Qed.
Print Assumptions C31_wrap_compose.

Section Line.
Variable F : realFieldType.
Variables (fsqrt fexp flog : F -> F).
Notation SO := (exactS fsqrt fexp flog).
Implicit Types (v p lik kern : seq F).

Lemma insideE n z : inside n z = on_line n z. Proof. by []. Qed.

Lemma size_shift v a c : size (shift (o := SO) v a c) = size v.
Proof. by rewrite /shift -size_listlen List.map_length List.seq_length. Qed.

Lemma line_one v (b a : Z) (i : nat) (c : F) : (* b = disp *)
  \sum_(j < size v) (if on_line (size v) (zn j + a)%coqZ && Z.eqb (zn j + a + b)%coqZ (zn i) then nth 0 v j * c else 0) =
  if on_line (size v) (zn i - b)%coqZ && on_line (size v) (zn i - b - a)%coqZ then c * nth 0 v (Z.to_nat (zn i - b - a)) else 0.
Proof.
case: ifP => [/andP[h1 h2]|h].
  have /andP[/Z.leb_spec0 l1 /Z.ltb_spec0 l2] := h2.
  have hj : (Z.to_nat (zn i - b - a) < size v)%N by apply/ssrnat.ltP; lia.
  rewrite (bigD1 (Ordinal hj)) // big1; cbn [nat_of_ord].
    rewrite [LHS]addr0 Z2Nat.id //.
    have -> : (zn i - b - a + a = zn i - b)%coqZ by lia.
    have -> : (zn i - b + b = zn i)%coqZ by lia.
    by rewrite h1 Z.eqb_refl mulrC.
  move=> j nj; case: Z.eqb_spec => [e|]; last by rewrite andbF.
  case/eqP: nj; apply: val_inj => /=; lia.
rewrite big1 // => j _; case: Z.eqb_spec => [e|]; last by rewrite andbF.
rewrite andbT; case: ifP => // h1; move: h.
have -> : (zn i - b = zn j + a)%coqZ by lia.
rewrite h1 /=; have -> : (zn j + a - a = zn j)%coqZ by lia.
have /ssrnat.ltP hj := ltn_ord j.
by rewrite /on_line => /andP[]; split; [apply/Z.leb_spec0|apply/Z.ltb_spec0]; lia.
Qed.

Lemma moved_lineE v a kern i :
  moved_line v a kern i = \sum_(k < size kern)
    if on_line (size v) (zn i - disp kern k)%coqZ && on_line (size v) (zn i - disp kern k - a)%coqZ
    then nth 0 kern k * nth 0 v (Z.to_nat (zn i - disp kern k - a)) else 0.
Proof. by rewrite /moved_line exchange_big; apply: eq_bigr => k _; rewrite -line_one. Qed.
End Line.

(** ** predict on a line *)
Theorem C31_predict_constant : forall (F : realFieldType) (fsqrt fexp flog : F -> F) (v kern : seq F) (offset : Z) (cval : F),
  db_predict (o := exactS fsqrt fexp flog) v offset kern false cval =
  mkseq (fun i => cval * (\sum_(x <- kern) x) + moved_line [seq x - cval | x <- v] offset kern i) (size v).
Proof.
move=> F fsqrt fexp flog v kern a c.
have sz : size (db_predict (o := exactS fsqrt fexp flog) v a kern false c) = size v.
  by rewrite /db_predict /conv_const size_conv size_listlen size_shift.
apply: (@eq_from_nth F 0); first by rewrite sz size_mkseq.
move=> i; rewrite sz => hi; rewrite [RHS]nth_mkseq // /db_predict /conv_const convE ?size_listlen ?size_shift //.
rewrite moved_lineE size_map sum_nthE mulr_sumr -big_split; apply: eq_bigr => k _.
set z := (zn i - disp kern k)%coqZ; rewrite [c * _]mulrC; rewrite insideE.
case: ifP => [hz|_ /=]; last by rewrite [RHS]addr0.
have /andP[/Z.leb_spec0 l1 /Z.ltb_spec0 l2] := hz.
rewrite /zget lnth /shift nth_map_seq; last by apply/ssrnat.ltP; change (length v) with (size v); lia.
rewrite add0n Z2Nat.id // insideE andTb; case: ifP => [h2|_]; last by rewrite [RHS]addr0.
have /andP[/Z.leb_spec0 m1 /Z.ltb_spec0 m2] := (h2 : on_line (size v) (z - a)).
rewrite (nth_map 0); last by apply/ssrnat.ltP; apply/Nat2Z.inj_lt; rewrite Z2Nat.id.
by rewrite /zget ?lnth mulrBr [RHS]addrC subrK.
Qed.
Print Assumptions C31_predict_constant.

(** With cval = 0 the mass that leaves the line is lost, and nothing else. *)
Theorem C31_constant_mass : forall (F : realFieldType) (fsqrt fexp flog : F -> F) (v kern : seq F) (offset : Z),
  let w : seq F := db_predict (o := exactS fsqrt fexp flog) v offset kern false 0 in
  w = mkseq (moved_line v offset kern) (size v) /\
  (\sum_(x <- w) x = \sum_(j < size v) \sum_(k < size kern)
     (if on_line (size v) (zn j + offset)%coqZ && on_line (size v) (zn j + offset + disp kern k)%coqZ then nth 0 v j * nth 0 kern k else 0)) /\
  ((forall i, 0 <= nth 0 v i) -> (forall i, 0 <= nth 0 kern i) ->
   (forall i, 0 <= nth 0 w i) /\ \sum_(x <- w) x <= (\sum_(x <- kern) x) * \sum_(x <- v) x).
Proof.
move=> F fsqrt fexp flog v kern a w.
have E : w = mkseq (moved_line v a kern) (size v).
  rewrite /w C31_predict_constant; apply: eq_mkseq => i; rewrite mul0r add0r; congr (moved_line _ _ _ _).
  by rewrite -[RHS]map_id; apply: eq_map => x; rewrite subr0.
have S : \sum_(x <- w) x = \sum_(j < size v) \sum_(k < size kern)
     (if on_line (size v) (zn j + a)%coqZ && on_line (size v) (zn j + a + disp kern k)%coqZ then nth 0 v j * nth 0 kern k else 0).
  rewrite sum_nthE E size_mkseq (eq_bigr (fun i : 'I__ => moved_line v a kern i)); last by move=> i _; rewrite nth_mkseq.
  rewrite /moved_line exchange_big; apply: eq_bigr => j _; rewrite exchange_big; apply: eq_bigr => k _ /=.
  case: (on_line _ _) => /=; last by rewrite big1.
  set z := (_ + disp _ _)%coqZ; rewrite /on_line.
  case: ifP => [/andP[/Z.leb_spec0 l1 /Z.ltb_spec0 l2]|h].
    have hj : (Z.to_nat z < size v)%N by apply/ssrnat.ltP; lia.
    rewrite (bigD1 (Ordinal hj)) //= big1 ?addr0 ?Z2Nat.id ?Z.eqb_refl //.
    by move=> i ni; case: Z.eqb_spec => // e; case/eqP: ni; apply: val_inj => /=; lia.
  rewrite big1 // => i _; case: Z.eqb_spec => // e; have /ssrnat.ltP hi := ltn_ord i.
  by move: h; rewrite e => /andP[]; split; [apply/Z.leb_spec0|apply/Z.ltb_spec0]; lia.
split=> //; split=> // v0 k0; split.
  move=> i; rewrite E; case: (ltnP i (size v)) => hi; last by rewrite nth_default ?size_mkseq.
  rewrite nth_mkseq //; apply: sumr_ge0 => j _; apply: sumr_ge0 => k _; case: ifP => // _; exact: mulr_ge0.
rewrite S mulrC !sum_nthE big_distrl; apply: ler_sum => j _; rewrite big_distrr; apply: ler_sum => k _ /=.
by case: ifP => // _; apply: mulr_ge0.
Qed.
Print Assumptions C31_constant_mass.

(** ** update: Bayes' rule *)
Theorem C31_update : forall (F : realFieldType) (fsqrt fexp flog : F -> F) (lik prior : seq F),
  size lik = size prior -> \sum_(i < size prior) nth 0 lik i * nth 0 prior i != 0 ->
  let w := mkseq (fun i => nth 0 lik i * nth 0 prior i / \sum_(j < size prior) nth 0 lik j * nth 0 prior j) (size prior) in
  [/\ db_update (o := exactS fsqrt fexp flog) lik prior = Ok w, \sum_(x <- w) x = 1 &
      (forall i, 0 <= nth 0 lik i) -> (forall i, 0 <= nth 0 prior i) -> dist w].
Proof.
move=> F fsqrt fexp flog lik prior e nz w.
have S1 : \sum_(x <- w) x = 1.
  rewrite sum_nthE size_mkseq (eq_bigr (fun i : 'I__ => nth 0 lik i * nth 0 prior i / \sum_(j < size prior) nth 0 lik j * nth 0 prior j)).
    by rewrite -mulr_suml divff.
  by move=> i _; rewrite nth_mkseq.
split=> //.
  have [u Eu [su Hu]] := bmulE fsqrt fexp flog (esym e).
  rewrite /db_update Eu /=; congr Ok; apply: (@eq_from_nth F 0); first by rewrite size_norm size_mkseq.
  move=> i; rewrite size_norm su => hi; rewrite normE nth_mkseq // Hu mulrC [nth 0 lik i * _]mulrC mulrC; congr (_ / _).
  by rewrite sum_nthE su; apply: eq_bigr => j _; rewrite Hu mulrC.
move=> l0 p0; split=> // i; case: (ltnP i (size prior)) => hi; last by rewrite nth_default ?size_mkseq.
by rewrite nth_mkseq // mulr_ge0 ?mulr_ge0 // invr_ge0 sumr_ge0 // => j _; rewrite mulr_ge0.
Qed.
Print Assumptions C31_update.

Lemma two_updates (F : realFieldType) (x y z s t : F) : s != 0 -> x * y / s * z / (t / s) = x * z * y / t.
Proof. by move=> h; rewrite invf_div -!mulrA; congr (_ * _); rewrite [s^-1 * _]mulrCA mulKf // mulrCA. Qed.

(** Updates commute, and two of them are one with the product of the likelihoods. *)
Theorem C31_update_commute : forall (F : realFieldType) (fsqrt fexp flog : F -> F) (l1 l2 p : seq F),
  size l1 = size p -> size l2 = size p ->
  \sum_(i < size p) nth 0 l1 i * nth 0 p i != 0 -> \sum_(i < size p) nth 0 l2 i * nth 0 p i != 0 ->
  let upd := db_update (o := exactS fsqrt fexp flog) in
  rbind (upd l1 p) (upd l2) = rbind (upd l2 p) (upd l1) /\
  (\sum_(i < size p) nth 0 l1 i * nth 0 l2 i * nth 0 p i != 0 ->
   rbind (upd l1 p) (upd l2) = upd (mkseq (fun i => nth 0 l1 i * nth 0 l2 i) (size p)) p).
Proof.
move=> F fsqrt fexp flog l1 l2 p e1 e2 n1 n2 upd.
have G (a b : seq F) : size a = size p -> size b = size p -> \sum_(i < size p) nth 0 a i * nth 0 p i != 0 ->
  rbind (upd a p) (upd b) = Ok (mkseq (fun i => nth 0 a i * nth 0 b i * nth 0 p i / \sum_(j < size p) nth 0 a j * nth 0 b j * nth 0 p j) (size p)).
  move=> ea eb na; have [E _ _] := C31_update fsqrt fexp flog ea na; rewrite /upd E /= {E}.
  set s := \sum_(j < size p) (nth 0 a j * nth 0 p j) in na *; set w := mkseq (fun i => _ / s) _; have sw : size w = size p by rewrite size_mkseq.
  have [u Eu [su Hu]] := bmulE fsqrt fexp flog (etrans sw (esym eb)).
  rewrite /db_update Eu /=; congr Ok; apply: (@eq_from_nth F 0); first by rewrite size_norm su !size_mkseq.
  move=> i; rewrite size_norm su sw => hi; rewrite normE Hu !nth_mkseq //.
  rewrite sum_nthE su sw (eq_bigr (fun j : 'I__ => nth 0 a j * nth 0 b j * nth 0 p j / s)) -?mulr_suml.
    exact: two_updates.
  by move=> j _; rewrite Hu nth_mkseq // -!mulrA; congr (_ * _); rewrite [RHS]mulrCA; congr (_ * _); rewrite mulrC.
have S (a b : seq F) : \sum_(j < size p) nth 0 a j * nth 0 b j * nth 0 p j = \sum_(j < size p) nth 0 b j * nth 0 a j * nth 0 p j.
  by apply: eq_bigr => j _; rewrite [nth 0 a j * _]mulrC.
split; first by rewrite !G //; congr Ok; apply: eq_mkseq => i; rewrite S [nth 0 l1 i * _]mulrC.
move=> n3; rewrite G //.
have [||E _ _] := @C31_update F fsqrt fexp flog (mkseq (fun i => nth 0 l1 i * nth 0 l2 i) (size p)) p.
- by rewrite size_mkseq.
- by rewrite (eq_bigr (fun i : 'I__ => nth 0 l1 i * nth 0 l2 i * nth 0 p i)) // => i _; rewrite nth_mkseq.
rewrite /upd E; congr Ok; apply: (@eq_from_nth F 0); first by rewrite !size_mkseq.
move=> i; rewrite size_mkseq => hi; rewrite !nth_mkseq //; congr (_ / _).
by apply: eq_bigr => j _; rewrite nth_mkseq.
Qed.
Print Assumptions C31_update_commute.

Section Run.
Variable F : realFieldType.
Variables (fsqrt fexp flog : F -> F).
Notation SO := (exactS fsqrt fexp flog).
Implicit Types (v p lik kern al : seq F).

Definition nonneg v := forall i, 0 <= nth 0 v i.

Lemma moved_ring_div b al s a kern i : size b = size al -> (forall j, nth 0 b j = nth 0 al j / s) ->
  moved_ring b a kern i = moved_ring al a kern i / s.
Proof.
move=> sz H; rewrite /moved_ring sz mulr_suml; apply: eq_bigr => j _; rewrite mulr_suml; apply: eq_bigr => k _.
by case: ifP => _; rewrite ?mul0r // H mulrAC.
Qed.

Lemma moved_ring_ge0 v a kern i : nonneg v -> nonneg kern -> 0 <= moved_ring v a kern i.
Proof. by move=> v0 k0; apply: sumr_ge0 => j _; apply: sumr_ge0 => k _; case: ifP => // _; apply: mulr_ge0. Qed.

Definition fstep kern a lik al := mkseq (fun i => nth 0 lik i * moved_ring al a kern i) (size al).

Lemma fstep_ge0 kern a lik al : nonneg kern -> nonneg lik -> nonneg al -> nonneg (fstep kern a lik al).
Proof.
move=> k0 l0 a0 i; case: (ltnP i (size al)) => hi; last by rewrite nth_default ?size_mkseq.
by rewrite nth_mkseq // mulr_ge0 // moved_ring_ge0.
Qed.

Lemma fstep_pos kern a lik al : nonneg al -> 0 < \sum_(x <- fstep kern a lik al) x -> 0 < \sum_(x <- al) x.
Proof.
move=> a0; rewrite !sum_nthE lt_def => /andP[nz _]; rewrite lt_def sumr_ge0 ?andbT => [|j _]; last exact: a0.
apply: contraNneq nz => z; rewrite big1 // => i _; rewrite nth_mkseq; last exact: (leq_trans (ltn_ord i) (eq_leq (size_mkseq _ _))).
rewrite /moved_ring big1 ?mulr0 // => j _; rewrite big1 // => k _; case: ifP => // _.
have := psumr_eq0P (P := predT) (fun (j : 'I_(size al)) _ => a0 j) z; move=> /(_ j isT) ->; exact: mul0r.
Qed.

Definition moves_ok (n : nat) (moves : seq (Z * seq F)) := forall m, List.In m moves -> size m.2 = n /\ nonneg m.2.

Lemma fwd_pos kern moves al : nonneg kern -> moves_ok (size al) moves -> nonneg al ->
  0 < \sum_(x <- forward kern moves al) x -> 0 < \sum_(x <- al) x.
Proof.
move=> k0; elim: moves al => [|[a lik] r IH] al ok a0 //= pos.
have [/= sl l0] := ok _ (or_introl erefl).
apply: (fstep_pos (kern := kern) (a := a) (lik := lik)) => //; apply: IH => //; last exact: fstep_ge0.
by move=> m im; rewrite size_mkseq; apply: ok; right.
Qed.

Lemma runE kern moves al b : nonneg kern -> moves_ok (size al) moves -> nonneg al ->
  size b = size al -> (forall i, nth 0 b i = nth 0 al i / \sum_(x <- al) x) ->
  0 < \sum_(x <- forward kern moves al) x ->
  db_run (o := SO) kern moves b = Ok (mkseq (fun i => nth 0 (forward kern moves al) i / \sum_(x <- forward kern moves al) x) (size al)).
Proof.
move=> k0; elim: moves al b => [|[a lik] r IH] al b ok a0 sb H pos.
  congr Ok; apply: (@eq_from_nth F 0); first by rewrite size_mkseq.
  by move=> i; rewrite sb => hi; rewrite H nth_mkseq.
have [sl l0] : size lik = size al /\ nonneg lik := ok _ (or_introl erefl).
change (forward kern ((a, lik) :: r) al) with (forward kern r (fstep kern a lik al)).
have {}pos : 0 < \sum_(x <- forward kern r (fstep kern a lik al)) x := pos.
change (db_run (o := SO) kern ((a, lik) :: r) b) with
  (rbind (db_update (o := SO) lik (db_predict (o := SO) b a kern true 0)) (db_run (o := SO) kern r)).
have ok' : moves_ok (size (fstep kern a lik al)) r by move=> m im; rewrite size_mkseq; apply: ok; right.
have p1 := fwd_pos k0 ok' (fstep_ge0 a k0 l0 a0) pos.
have p0 := fstep_pos a0 p1; set s := \sum_(x <- al) x in H p0 *.
rewrite C31_predict_wrap; set w := mkseq (moved_ring b a kern) (size b).
have sw : size w = size al by rewrite size_mkseq.
have E : \sum_(i < size w) nth 0 lik i * nth 0 w i = (\sum_(x <- fstep kern a lik al) x) / s.
  rewrite sum_nthE sw size_mkseq mulr_suml; apply: eq_bigr => i _; rewrite !nth_mkseq ?sb //.
  by rewrite (moved_ring_div _ _ _ sb H) mulrA.
have [||U _ _] := @C31_update F fsqrt fexp flog lik w.
- by rewrite sw.
- by rewrite E gt_eqF // divr_gt0.
rewrite U; cbn [rbind]; rewrite -[in RHS](size_mkseq (fun i => nth 0 lik i * moved_ring al a kern i) (size al)).
apply: (IH (fstep kern a lik al)) => //.
- exact: fstep_ge0.
- by rewrite !size_mkseq.
move=> i; case: (ltnP i (size al)) => hi; last by rewrite !nth_default ?size_mkseq ?mul0r ?sb.
rewrite E nth_mkseq ?sw // !nth_mkseq ?sb // (moved_ring_div _ _ _ sb H) mulrA invf_div mulrA; congr (_ / _).
by rewrite -mulrA mulVf ?mulr1 // gt_eqF.
Qed.
End Run.

(** ** The filter loop is the forward recursion of the hidden Markov model, for any history that is possible at all. *)
Theorem C31_run : forall (F : realFieldType) (fsqrt fexp flog : F -> F) (kern belief : seq F) (moves : seq (Z * seq F)),
  dist belief -> nonneg kern -> moves_ok (size belief) moves -> 0 < \sum_(x <- forward kern moves belief) x ->
  let a := forward kern moves belief in
  let w := mkseq (fun i => nth 0 a i / \sum_(x <- a) x) (size belief) in
  db_run (o := exactS fsqrt fexp flog) kern moves belief = Ok w /\ dist w.
Proof.
move=> F fsqrt fexp flog kern b moves [b0 b1] k0 ok pos a w; split.
  by apply: runE => // i; rewrite b1 divr1.
have sa : size a = size b.
  rewrite /a; elim: moves {ok pos a w} b {b0 b1} => [|[z l] r IH] b //=; by rewrite IH size_mkseq.
have a0 : nonneg a.
  rewrite /a; elim: moves b ok b0 {pos a w sa b1} => [|[z l] r IH] b ok b0 //=.
  have [/= sl l0] := ok _ (or_introl erefl).
  by apply: IH; [move=> m im; rewrite size_mkseq; apply: ok; right|apply: fstep_ge0].
split.
  move=> i; case: (ltnP i (size b)) => hi; last by rewrite nth_default ?size_mkseq.
  by rewrite nth_mkseq // divr_ge0 // ltW.
rewrite sum_nthE size_mkseq (eq_bigr (fun i : 'I__ => nth 0 a i / \sum_(x <- a) x)); last by move=> i _; rewrite nth_mkseq.
by rewrite -mulr_suml -sa -sum_nthE divff // gt_eqF.
Qed.
Print Assumptions C31_run.

(** Shapes: equal lengths never raise, different lengths do unless one is 1 (NumPy then broadcasts it); any arithmetic. *)
Theorem C31_update_shapes : forall (o : sops) (lik prior : seq (sc o)),
  (exists e, db_update lik prior = Err e) <-> size lik <> size prior /\ size lik <> 1%N /\ size prior <> 1%N.
Proof.
move=> o lik prior; rewrite /db_update /bmul; case: Nat.eqb_spec => e /=.
  by split=> [[x]//|[h _]]; case: h.
case: prior e => [|a [|b p]] e; case: lik e => [|c [|d l]] //= e; split=> [[x]//|[h [h1 h2]]] //;
  try by [exists ValueError]; try by case: h1; try by case: h2.
all: by split; [move=> h; apply: e|split].
Qed.
Print Assumptions C31_update_shapes.
