(** * Lemmas on periodic sums and the discrete Bayes filter in exact arithmetic. *)
From Coq Require Import ZArith Lia.
From mathcomp Require Import all_ssreflect all_algebra.
From Verif Require Import Ops Exact Proof_UKF Proof_MM Model_DB Spec_DB.
Set Implicit Arguments.
Unset Strict Implicit.
Unset Printing Implicit Defensive.
Import Order.TTheory GRing.Theory Num.Theory.
Local Open Scope ring_scope.
Delimit Scope Z_scope with coqZ.
Notation zn := Z.of_nat.

Section DB.
Variable F : realFieldType.
Variables (fsqrt fexp flog : F -> F).
Notation SO := (exactS fsqrt fexp flog).
Implicit Types (v p lik kern : seq F) (f : Z -> F).

Lemma pysumE v : pysum (o := SO) v = \sum_(x <- v) x.
Proof.
rewrite /pysum /=; suff H s : List.fold_left (fun x y => x + y) v s = s + \sum_(x <- v) x by rewrite H add0r.
by elim: v s => [|a v IH] s; rewrite ?big_nil ?addr0 //= IH big_cons addrA.
Qed.

Lemma normE v i : nth 0 (db_normalize (o := SO) v) i = nth 0 v i / \sum_(x <- v) x.
Proof.
rewrite /db_normalize pysumE; move: (\sum_(_ <- _) _) => s.
by elim: v i => [|a v IH] [|i]; rewrite //= ?mul0r // IH.
Qed.
Lemma size_norm v : size (db_normalize (o := SO) v) = size v.
Proof. rewrite /db_normalize; move: (pysum _) => s; by elim: v => //= a v ->. Qed.

Lemma size_listlen (T : Type) (s : seq T) : length s = size s. Proof. by []. Qed.

Lemma lnth (T : Type) (d : T) (s : seq T) i : List.nth i s d = nth d s i.
Proof. by elim: s i => [|a s IH] [|i] //=. Qed.

Lemma bmulE p lik : size p = size lik -> exists2 w, bmul (o := SO) p lik = Ok w & size w = size p /\ forall i, nth 0 w i = nth 0 p i * nth 0 lik i.
Proof.
move=> e; rewrite /bmul (proj2 (Nat.eqb_eq _ _) e); eexists; first by [].
split; first by elim: p lik e => [|a p IH] [|b l] //= [e]; rewrite IH.
by elim: p lik e => [|a p IH] [|b l] //= => [_ i|[e] [|i]] //=; rewrite ?nth_nil ?mulr0 //; apply: IH.
Qed.

Lemma sum_nthE v : \sum_(x <- v) x = \sum_(i < size v) nth 0 v i.
Proof. by rewrite (big_nth 0) big_mkord. Qed.

(** ** Periodic functions *)
Definition periodic (n : nat) f := forall z, f (z + zn n)%coqZ = f z.

Lemma psum_step n f : periodic n f -> \sum_(i < n) f (zn i + 1)%coqZ = \sum_(i < n) f (zn i).
Proof.
case: n => [|n] H; first by rewrite !big_ord0.
rewrite big_ord_recr [RHS]big_ord_recl [LHS]addrC; congr (_ + _).
  by rewrite -[RHS]H; congr (f _); cbn [nat_of_ord ord_max ord0]; lia.
by apply: eq_bigr => i _; rewrite lift0; congr (f _); cbn [nat_of_ord widen_ord]; lia.
Qed.

Lemma psum_shift n f a : periodic n f -> \sum_(i < n) f (zn i + a)%coqZ = \sum_(i < n) f (zn i).
Proof.
move=> H; have Ha b : periodic n (fun z => f (z + b)%coqZ) by move=> z; rewrite -(H (z + b)%coqZ); congr (f _); lia.
have P (k : nat) b : \sum_(i < n) f (zn i + (b + zn k))%coqZ = \sum_(i < n) f (zn i + b)%coqZ.
  elim: k => [|k IH]; first by apply: eq_bigr => i _; congr (f _); lia.
  rewrite -IH -[RHS](psum_step (Ha (b + zn k)%coqZ)); apply: eq_bigr => i _; congr (f _); lia.
have [le|lt] : (0 <= a)%coqZ \/ (a < 0)%coqZ by lia.
  rewrite -[a](Z2Nat.id _ le); move: (Z.to_nat a) => k.
  by rewrite (P k 0%coqZ); apply: eq_bigr => i _; congr (f _); lia.
have e : a = (- zn (Z.to_nat (- a)))%coqZ by lia.
rewrite -(P (Z.to_nat (- a)) a); apply: eq_bigr => i _; congr (f _); lia.
Qed.

(** The periodic extension of an array. *)
Definition per v (z : Z) : F := nth 0 v (Z.to_nat (z mod zn (size v))%coqZ).
Lemma per_periodic v : periodic (size v) (per v).
Proof.
move=> z; rewrite /per; congr (nth _ _ (Z.to_nat _)).
case: (size v) => [|n]; first by rewrite /= Z.add_0_r.
by have := Z_mod_plus_full z 1 (zn n.+1); rewrite Z.mul_1_l.
Qed.
Lemma per_mod v z : per v (z mod zn (size v))%coqZ = per v z.
Proof.
rewrite /per; case: (size v) => [|n]; first by rewrite !Zmod_0_r.
by rewrite Z.mod_mod //; lia.
Qed.
Lemma per_nat v (i : nat) : (i < size v)%N -> per v (zn i) = nth 0 v i.
Proof. by move/ssrnat.ltP=> h; rewrite /per Z.mod_small; [rewrite Nat2Z.id|lia]. Qed.

(** A periodic function tabulated on the array is extended by itself. *)
Lemma per_tab v f n : size v = n -> (forall i, (i < n)%N -> nth 0 v i = f (zn i)) -> periodic n f -> forall z, (0 < n)%N -> per v z = f z.
Proof.
move=> sv tab H z n0; rewrite /per sv; have npos : (0 < zn n)%coqZ by move/ssrnat.ltP: n0; lia.
have := Z.mod_pos_bound z _ npos; set r := (z mod _)%coqZ => hr.
rewrite tab; last by apply/ssrnat.ltP; lia.
rewrite Z2Nat.id; last lia.
have Hk (k : nat) b : f (b + zn k * zn n)%coqZ = f b.
  elim: k b => [|k IH] b; first by congr (f _); lia.
  by rewrite -[RHS]IH -[RHS]H; congr (f _); lia.
rewrite [in RHS](Z_div_mod_eq_full z (zn n)) -/r; set q := (z / zn n)%coqZ.
have [le|lt] : (0 <= q)%coqZ \/ (q < 0)%coqZ by lia.
  by rewrite -(Hk (Z.to_nat q) r); congr (f _); nia.
by rewrite -(Hk (Z.to_nat (- q)) (zn n * q + r)%coqZ); congr (f _); nia.
Qed.

Lemma size_roll v a : size (roll (o := SO) v a) = size v.
Proof. by rewrite /roll -size_listlen List.map_length List.seq_length. Qed.

Lemma rollE v a z : (0 < size v)%N -> per (roll (o := SO) v a) z = per v (z - a)%coqZ.
Proof.
move=> n0; apply: (per_tab (n := size v) (f := fun z => per v (z - a)%coqZ)) => //; first exact: size_roll.
  by move=> i hi; rewrite /roll nth_map_seq // add0n /zget lnth.
by move=> y; rewrite -[RHS]per_periodic; congr (per v _); lia.
Qed.

Lemma half_div (k : nat) : k./2 = Nat.div k 2.
Proof.
apply: (Nat.div_unique _ _ _ (odd k)); first by (case: (odd k) => /=; lia).
by have := odd_double_half k; rewrite -muln2 -plusE -multE; lia.
Qed.

Lemma size_conv g n k : size (conv (o := SO) g n k) = n.
Proof. by rewrite /conv -size_listlen List.map_length List.seq_length. Qed.

Lemma convE g n kern i : (i < n)%N ->
  nth 0 (conv (o := SO) g n kern) i = \sum_(k < size kern) nth 0 kern k * g (zn i - disp kern k)%coqZ.
Proof.
move=> hi; rewrite /conv nth_map_seq // (fold_sum _ (fun k => _ * _)) add0n.
apply: eq_bigr => k _; congr (_ * g _).
  exact: lnth.
rewrite /disp half_div; change (length kern) with (size kern); move: (Nat.div _ _) (nat_of_ord k) => h q; lia.
Qed.
End DB.
