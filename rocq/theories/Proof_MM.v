(** * Banks of filters in exact arithmetic. *)
From Coq Require Import ZArith QArith.
From mathcomp Require Import all_ssreflect all_algebra.
From Verif Require Import Ops Exact Spec ZmodTac FieldTac LinAlg Model_KF Model_MM Spec_MM Proof_UKF.
Set Implicit Arguments.
Unset Strict Implicit.
Unset Printing Implicit Defensive.
Import Order.TTheory GRing.Theory Num.Theory.
Local Close Scope Q_scope.
Local Close Scope Z_scope.
Local Open Scope ring_scope.

Section Mix.
Variable F : realFieldType.
Variables N n : nat.
Variables (w : 'I_N -> F) (x : 'I_N -> 'cV[F]_n) (P : 'I_N -> 'M[F]_n).
Lemma mixcov_psd : (forall i, 0 <= w i) -> (forall i, psd (P i)) -> psd (mixcov w x P).
Proof.
move=> w0 p0; rewrite /mixcov; elim/big_ind: _ => [|A B|i _]; [exact: psd0|exact: psdD|].
by apply: psdZ => //; apply: psdD => //; exact: psd_gram.
Qed.
(** Second moments. *)
Lemma mixcov2 : \sum_i w i = 1 ->
  mixcov w x P = \sum_i w i *: (x i *m (x i)^T + P i) - mixmean w x *m (mixmean w x)^T.
Proof.
move=> w1; rewrite /mixcov; set m := mixmean w x.
rewrite (eq_bigr (fun i => w i *: (x i *m (x i)^T + P i) - (w i *: x i) *m m^T - m *m (w i *: x i)^T + w i *: (m *m m^T))) => [|i _].
  rewrite big_split /= !sumrB -mulmx_suml -mulmx_sumr -scaler_suml w1 scale1r -[\sum_i w i *: x i]/m.
  rewrite -(raddf_sum (trmx_additive _ _ _)) /= -[\sum_i w i *: x i]/m; zmod.
rewrite linearZ /= -scalemxAl -scalemxAr -!scalerBr -scalerDr; congr (_ *: _).
rewrite linearB /= mulmxBl !mulmxBr; zmod.
Qed.
End Mix.

(** Mixing by a Markov chain preserves the mixture's mean and covariance. *)
Section Mixing.
Variable F : realFieldType.
Variables N n : nat.
Variables (mu cbar : 'I_N -> F) (M om : 'I_N -> 'I_N -> F) (x : 'I_N -> 'cV[F]_n) (P : 'I_N -> 'M[F]_n).
Hypothesis mu1 : \sum_i mu i = 1.
Hypothesis M1 : forall i, \sum_j M i j = 1.
Hypothesis cE : forall j, cbar j = \sum_i mu i * M i j.
Hypothesis oE : forall i j, om i j * cbar j = M i j * mu i.
Hypothesis o1 : forall j, \sum_i om i j = 1.
Let x0 j := mixmean (om^~ j) x.
Let P0 j := mixcov (om^~ j) x P.
Lemma cbar1 : \sum_j cbar j = 1.
Proof.
rewrite (eq_bigr _ (fun j _ => cE j)) exchange_big /= -mu1; apply: eq_bigr => i _.
by rewrite -mulr_sumr M1 mulr1.
Qed.
Lemma mix_swap (V : lmodType F) (f : 'I_N -> V) : \sum_j cbar j *: (\sum_i om i j *: f i) = \sum_i mu i *: f i.
Proof.
rewrite (eq_bigr (fun j => \sum_i (M i j * mu i) *: f i)) => [|j _]; last first.
  by rewrite scaler_sumr; apply: eq_bigr => i _; rewrite scalerA mulrC oE.
by rewrite exchange_big; apply: eq_bigr => i _ /=; rewrite -scaler_suml -mulr_suml M1 mul1r.
Qed.
Lemma mixing_mean : mixmean cbar x0 = mixmean mu x. Proof. exact: mix_swap. Qed.
Lemma mixing_cov : mixcov cbar x0 P0 = mixcov mu x P.
Proof.
rewrite !mixcov2 ?cbar1 // mixing_mean; congr (_ - _).
rewrite -[RHS](mix_swap (fun i => x i *m (x i)^T + P i)); apply: eq_bigr => j _; congr (_ *: _).
by rewrite /P0 mixcov2 ?o1 // -/(x0 j) addrC subrK.
Qed.
End Mixing.

Lemma nth_map_seq A (g : nat -> A) dd b N k : (k < N)%N -> nth dd (List.map g (List.seq b N)) k = g (b + k)%N.
Proof. by elim: N k b => [|N' IH] [|k] b //= hk; rewrite ?addn0 // IH // addSnnS. Qed.

Section Bank.
Variable F : realFieldType.
Variables (fsqrt fexp flog : F -> F).
Notation EO := (exactO fsqrt fexp flog).
Variables n m l : nat.
Variable T : Type.
Variable D : filt EO n m l T.
Variable f0 : T.

Lemma fold_combine (V : zmodType) (h : T -> nat -> V) (fs : list T) k :
  List.fold_left (fun a p => a + h (fst p) (snd p)) (List.combine fs (List.seq k (size fs))) 0 = \sum_(i < size fs) h (nth f0 fs i) (k + i)%N.
Proof.
suff G a : List.fold_left (fun a p => a + h (fst p) (snd p)) (List.combine fs (List.seq k (size fs))) a = a + \sum_(i < size fs) h (nth f0 fs i) (k + i)%N by rewrite G add0r.
elim: fs k a => [|f fs IH] k a; first by rewrite big_ord0 addr0.
rewrite /= IH big_ord_recl /= addn0 addrA; congr (_ + _); apply: eq_bigr => i _; by rewrite /bump /= add1n addSnnS.
Qed.

Variable N : nat.
Notation fx fs := (fun i : 'I_N => f_x D (nth f0 fs i) : 'cV[F]_n).
Notation fP fs := (fun i : 'I_N => f_P D (nth f0 fs i) : 'M[F]_n).
Lemma mix_xE (fs : list T) w : size fs = N -> mix_x D fs w = mixmean (fun i : 'I_N => w i) (fx fs).
Proof.
move=> sN; rewrite /mix_x /mixmean; rewrite -[length fs]/(size fs).
have := @fold_combine [zmodType of 'cV[F]_n] (fun f i => w i *: (f_x D f : 'cV[F]_n)) fs 0; case: _ / sN => E.
by rewrite [LHS]E; apply: eq_bigr => i _; rewrite add0n.
Qed.
Lemma mix_PE (fs : list T) w : size fs = N -> mix_P D fs w (mix_x D fs w) = mixcov (fun i : 'I_N => w i) (fx fs) (fP fs).
Proof.
move=> sN; rewrite mix_xE // /mix_P; set x := mixmean _ _; rewrite -[length fs]/(size fs).
have := @fold_combine [zmodType of 'M[F]_n] (fun f i => w i *: (((f_x D f : 'cV[F]_n) - x) *m ((f_x D f : 'cV[F]_n) - x)^T + (f_P D f : 'M[F]_n))) fs 0.
rewrite /mixcov -/x; clearbody x; case: _ / sN => E.
by rewrite [LHS]E; apply: eq_bigr => i _; rewrite add0n.
Qed.
Lemma vsumE (v : 'rV[F]_N) : vsum (o := EO) v = \sum_i v 0 i.
Proof.
rewrite /vsum [LHS](@fold_sum N _ (fun i => mx_get v 0 i)); apply: eq_bigr => i _; exact: (mx_getE v 0 i).
Qed.

(** The loops, filter by filter. *)
Lemma imm_update_allE z i fs lik : let r := imm_update_all D z i fs lik in
  [/\ size r.1.1 = size fs, size r.1.2 = size lik & snd r = None ->
  (forall j, (j < size fs)%N -> let f' := f_update D z None None (nth f0 fs j) in
     snd f' = None /\ nth f0 r.1.1 j = snd (f_lik D (fst f')) /\
     ((i + size fs <= size lik)%N -> nth 0 r.1.2 (i + j) = fst (f_lik D (fst f'))))
  /\ forall j, (j < i)%N -> nth 0 r.1.2 j = nth 0 lik j].
Proof.
have snE (s : list F) k v : set_nth s k v = if (k < size s)%N then seq.set_nth 0 s k v else s.
  by elim: s k => [|a s IH] [|k] //=; rewrite IH; case: ltnP => h; rewrite /= ltnS ?h // ltnNge h.
elim: fs i lik => [|f fs IH] i lik //=.
case E: (f_update D z None None f) => [f' [e|]] //.
case EL: (f_lik D f') => [L f'']; have := IH i.+1 (set_nth lik i L).
case: (imm_update_all _ _ _ _ _) => [[r lik'] e] /= [s1 s2 h].
have s3 : size (set_nth lik i L : list F) = size lik by rewrite snE; case: ltnP => //; rewrite size_set_nth => h'; apply/maxn_idPr.
split; [by rewrite s1|by rewrite s2|]; move=> /h [h1 h2]; split=> [[|j] hj|j hj] /=.
- rewrite E /= EL; split=> //; split=> // hl; rewrite addn0 h2 // snE.
  have -> : (i < size lik)%N by apply: leq_trans hl; rewrite -addn1 leq_add2l.
  by rewrite nth_set_nth /= eqxx.
- have [a [b c]] := h1 j hj; split=> //; split=> // hl; rewrite -addSnnS c // s3 addSnnS //.
- rewrite h2; last exact: ltnW.
  rewrite snE; case: ifP => // _; rewrite nth_set_nth /=; case: eqP => // je; by rewrite je ltnn in hj.
Qed.
Lemma imm_predict_allE u fs xP : let r := imm_predict_all D u fs xP in
  size r.1 = size fs /\ (snd r = None -> size xP = size fs -> forall j d, (j < size fs)%N ->
     let f' := f_predict D u (f_put D (nth d xP j).1 (nth d xP j).2 (nth f0 fs j)) in snd f' = None /\ nth f0 r.1 j = fst f').
Proof.
elim: fs xP => [|f fs IH] [|[x P] xP] //=.
case E: (f_predict D u _) => [f' [e|]] //=.
have := IH xP; case: (imm_predict_all D u fs xP) => r e /= [s1 h]; split; first by rewrite s1.
by move=> /h {}h [/h {}h] [|j] d hj //=; [rewrite E|exact: h].
Qed.
End Bank.
