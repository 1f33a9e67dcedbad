(** * IMMEstimator (C29). *)
From Coq Require Import ZArith QArith.
From mathcomp Require Import all_ssreflect all_algebra.
From Verif Require Import Ops Exact Spec ZmodTac FieldTac LinAlg Model_KF Model_MM Spec_KF_exact Proof_KF_exact Spec_MM Proof_UKF Proof_MM.
Set Implicit Arguments.
Unset Strict Implicit.
Unset Printing Implicit Defensive.
Import Order.TTheory GRing.Theory Num.Theory.
Local Close Scope Q_scope.
Local Close Scope Z_scope.
Local Open Scope ring_scope.

Section Defs.
Variable F : realFieldType.
Variables (fsqrt fexp flog : F -> F).
Notation EO := (exactO fsqrt fexp flog).
Variables n m l : nat.
Variable T : Type.
Variable D : filt EO n m l T.

(** After its update a filter reports a positive likelihood. *)
Definition positive_likelihoods : Prop :=
  forall z f f', f_update D z None None f = (f', None) -> 0 < (fst (f_lik D f') : F).

Variable N : nat.
Variable Mt : 'M[F]_N.
(** mu and cbar are probability vectors, cbar the one-step prediction of mu; omega[i, j] is the probability of having
    been in mode i given mode j now (Bayes' rule, wherever mode j is possible). *)
Definition mode_probabilities (s : imm EO n T N) : Prop :=
  let mu : 'rV[F]_N := i_mu s in let cbar : 'rV[F]_N := i_cbar s in let om : 'M[F]_N := i_omega s in
  [/\ prob mu, prob cbar, forall j, cbar 0 j = \sum_i mu 0 i * Mt i j,
      forall i j, om i j * cbar 0 j = Mt i j * mu 0 i &
      forall j, cbar 0 j != 0 -> prob (matrix.row j om^T)].

Definition bank_x (fs : list T) (d : T) (i : 'I_N) : 'cV[F]_n := f_x D (nth d fs i).
Definition bank_P (fs : list T) (d : T) (i : 'I_N) : 'M[F]_n := f_P D (nth d fs i).

Lemma mode_mixing (mu : 'rV[F]_N) : stochastic Mt -> prob mu ->
  let cbar : 'rV[F]_N := imm_cbar (o := EO) Mt mu in let om : 'M[F]_N := imm_omega (o := EO) Mt mu cbar in
  [/\ prob cbar, forall j, cbar 0 j = \sum_i mu 0 i * Mt i j,
      forall i j, om i j * cbar 0 j = Mt i j * mu 0 i &
      forall j, cbar 0 j != 0 -> prob (matrix.row j om^T)].
Proof.
move=> sM [m0 m1] cbar om.
have M0 i j : 0 <= Mt i j by have [h _] := sM i; have := h j; rewrite mxE.
have M1 i : \sum_j Mt i j = 1 by have [_ <-] := sM i; apply: eq_bigr => j _; rewrite mxE.
have cE j : cbar 0 j = \sum_i mu 0 i * Mt i j by rewrite mxE.
have oE i j : om i j = Mt i j * mu 0 i / cbar 0 j.
  rewrite -[LHS]/((\matrix_(i < N, j < N) (mx_get Mt i j * mx_get mu 0 i / mx_get cbar 0 j)) i j).
  by rewrite mxE mx_getE (mx_getE mu 0 i) (mx_getE cbar 0 j).
have c0 j : 0 <= cbar 0 j by rewrite cE; apply: sumr_ge0 => i _; exact: mulr_ge0.
have rE i j : (matrix.row j om^T) 0 i = om i j by rewrite 2!mxE.
clearbody om cbar; have z0 j : cbar 0 j = 0 -> forall i, Mt i j * mu 0 i = 0.
  move=> h i; apply/eqP; rewrite mulrC; move: h; rewrite cE => /eqP; rewrite psumr_eq0 => [/allP h|k _]; last exact: mulr_ge0.
  by apply: h; rewrite mem_index_enum.
split=> //.
- split=> //; exact: (@cbar1 F N (mu 0) (cbar 0) Mt m1 M1 cE).
- move=> i j; rewrite oE; case: (eqVneq (cbar 0 j) 0) => [h|h]; last by rewrite divfK.
  by rewrite h mulr0 (z0 _ h).
- move=> j h; split=> [i|]; first by rewrite rE oE divr_ge0 // mulr_ge0.
  rewrite (eq_bigr (fun i => Mt i j * mu 0 i / cbar 0 j)) => [|i _]; last by rewrite rE oE.
  rewrite -mulr_suml (eq_bigr (fun i => mu 0 i * Mt i j)) => [|i _]; last by rewrite mulrC.
  by rewrite -cE divff.
Qed.

Lemma mix_rowE (fs : list T) (d : T) (w : 'rV[F]_N) : size fs = N ->
  let x := mix_x D fs (fun i => mget (w : M EO 1 N) 0 i) in
  x = mixmean (w 0) (bank_x fs d) /\ mix_P D fs (fun i => mget (w : M EO 1 N) 0 i) x = mixcov (w 0) (bank_x fs d) (bank_P fs d).
Proof.
move=> sN x.
have gE : (fun i : 'I_N => mget (w : M EO 1 N) 0 i) =1 w 0 by move=> i; exact: (mx_getE w 0 i).
have mE : mixmean (fun i : 'I_N => mget (w : M EO 1 N) 0 i) (bank_x fs d) = mixmean (w 0) (bank_x fs d).
  by rewrite /mixmean; apply: eq_bigr => i _; rewrite gE.
split; first by rewrite /x (mix_xE D d _ sN).
rewrite /x (mix_PE D d _ sN) /mixcov mE; apply: eq_bigr => i _; by rewrite gE.
Qed.

Lemma normalise (w : 'rV[F]_N) : (forall i, 0 <= w 0 i) -> 0 < \sum_i w 0 i -> prob ((vsum (o := EO) w)^-1 *: w).
Proof.
move=> w0 w1; rewrite vsumE; split=> [i|]; first by rewrite mxE mulr_ge0 // invr_ge0 ltW.
rewrite (eq_bigr (fun i => (\sum_i w 0 i)^-1 * w 0 i)) => [|i _]; last by rewrite mxE.
by rewrite -mulr_sumr mulVf // gt_eqF.
Qed.
End Defs.

(** ** C29, update: every filter is updated by itself; mu is the normalised product of the predicted mode
    probabilities and the likelihoods the filters report; x and P are the mixture's mean and covariance. *)
Theorem C29_update : forall (F : realFieldType) (fsqrt fexp flog : F -> F) (n m l : nat) (T : Type)
    (D : filt (exactO fsqrt fexp flog) n m l T) (d : T) (N : nat) (Mt : 'M[F]_N) z (s s' : imm (exactO fsqrt fexp flog) n T N),
  size (i_filters s) = N -> size (i_lik s) = N -> imm_update D Mt z s = (s', None) ->
  let L (j : 'I_N) : F := fst (f_lik D (fst (f_update D z None None (nth d (i_filters s) j)))) in
  let mu : 'rV[F]_N := i_mu s' in let cbar : 'rV[F]_N := i_cbar s in
  [/\ forall j : 'I_N, nth d (i_filters s') j = snd (f_lik D (fst (f_update D z None None (nth d (i_filters s) j)))),
      forall j, mu 0 j = cbar 0 j * L j / \sum_k cbar 0 k * L k,
      i_x s' = mixmean (mu 0) (bank_x D (i_filters s') d),
      i_P s' = mixcov (mu 0) (bank_x D (i_filters s') d) (bank_P D (i_filters s') d) &
      (i_x_post s', i_P_post s') = (i_x s', i_P s')].
Proof.
move=> F fsqrt fexp flog n m l T D d N Mt z s s' sN lN E L mu cbar; rewrite /mu {mu}; move: E; rewrite /imm_update.
have := @imm_update_allE F fsqrt fexp flog n m l T D d z 0 (i_filters s) (i_lik s).
case: (imm_update_all _ _ _ _ _) => [[fs lik] [e|]] //= [s1 s2 /(_ erefl) [h _]].
set w : 'rV[F]_N := matrix_of_fun _ _ => -[<-]; cbn [i_filters i_mu i_x i_P i_x_post i_P_post].
have sf : size fs = N by rewrite s1.
have hj (j : 'I_N) := h j; rewrite sN lN in hj.
have wE j : w 0 j = cbar 0 j * L j.
  rewrite mxE [X in X * _](mx_getE (i_cbar s) 0 j); congr (_ * _).
  have [_ [_ /(_ (leqnn N))]] := hj j (ltn_ord j); rewrite /L => <-.
  by rewrite add0n; elim: (lik : list F) (nat_of_ord j) => [|a q IH] [|k] //=.
set mu : 'rV[F]_N := _ *: w; have [xE PE] := mix_rowE D d mu sf.
split=> //.
- by move=> j; have [_ [-> _]] := hj j (ltn_ord j).
- move=> j; rewrite mxE vsumE wE mulrC; congr (_ / _); apply: eq_bigr => k _; exact: wE.
Qed.
Print Assumptions C29_update.

(** ** C29, predict: every filter starts from the mixture of all filters weighted by its column of omega, and
    makes its own prediction; x and P are the mixture's with the weights mu. *)
Theorem C29_predict : forall (F : realFieldType) (fsqrt fexp flog : F -> F) (n m l : nat) (T : Type)
    (D : filt (exactO fsqrt fexp flog) n m l T) (d : T) (N : nat) u (s s' : imm (exactO fsqrt fexp flog) n T N),
  size (i_filters s) = N -> imm_predict D u s = (s', None) ->
  let om j := (i_omega s : 'M[F]_N)^~ j in let fs := i_filters s in let mu : 'rV[F]_N := i_mu s in
  let x0 j := mixmean (om j) (bank_x D fs d) in let P0 j := mixcov (om j) (bank_x D fs d) (bank_P D fs d) in
  [/\ size (i_filters s') = N,
      forall j : 'I_N, f_predict D u (f_put D (x0 j) (P0 j) (nth d fs j)) = (nth d (i_filters s') j, None),
      i_x s' = mixmean (mu 0) (bank_x D (i_filters s') d),
      i_P s' = mixcov (mu 0) (bank_x D (i_filters s') d) (bank_P D (i_filters s') d) &
      (i_x_prior s', i_P_prior s', i_mu s', i_cbar s', i_omega s') = (i_x s', i_P s', i_mu s, i_cbar s, i_omega s)].
Proof.
move=> F fsqrt fexp flog n m l T D d N u s s' sN E om fs mu x0 P0; move: E; rewrite /imm_predict.
set xP := List.map _ _; have := @imm_predict_allE F fsqrt fexp flog n m l T D d u fs xP.
case: (imm_predict_all _ _ _ _) => [fs' [e|]] //= [s1 h] -[<-]; cbn [i_filters i_mu i_x i_P i_x_prior i_P_prior i_cbar i_omega].
have sx : size xP = size fs by rewrite /xP -[LHS]/(length xP) List.map_length List.seq_length sN.
have sf : size fs' = N by rewrite s1.
have [xE PE] := mix_rowE D d mu sf; split=> //.
move=> j; have jN : (j < size fs)%N by rewrite sN.
have xPE : nth (x0 j, P0 j) xP j = (x0 j, P0 j) :> ('cV[F]_n * 'M[F]_n).
  rewrite /xP nth_map_seq // add0n.
  rewrite /imm_mixed (mix_PE D d _ sN) (mix_xE D d _ sN).
  have gE : (fun i : 'I_N => mget (i_omega s) i j) =1 om j by move=> i; exact: mx_getE.
  have mE : mixmean (fun i : 'I_N => mget (i_omega s) i j) (bank_x D fs d) = x0 j by rewrite /x0 /mixmean; apply: eq_bigr => i _; rewrite gE.
  by rewrite -[(fun i : 'I_N => f_x D _)]/(bank_x D fs d) mE /P0 /mixcov; congr pair; rewrite mE; apply: eq_bigr => i _; rewrite gE.
have [] := h erefl sx j (x0 j, P0 j) jN; rewrite xPE /= => h1 ->.
by case: (f_predict _ _ _) h1 => a b /= ->.
Qed.
Print Assumptions C29_predict.

(** ** C29.  Whatever the filters, their predictions and their updates (exceptions included), after any history the mode
    probabilities are as specified, if the likelihoods are positive and M is row-stochastic. *)
Theorem C29_mode_probabilities : forall (F : realFieldType) (fsqrt fexp flog : F -> F) (n m l : nat) (T : Type)
    (D : filt (exactO fsqrt fexp flog) n m l T) (N : nat) (Mt : 'M[F]_N) (mu : 'rV[F]_N) (fs : list T) (cs : list (imm_call (exactO fsqrt fexp flog) m l)),
  positive_likelihoods D -> stochastic Mt -> (forall i, 0 <= mu 0 i) -> 0 < \sum_i mu 0 i -> size fs = N ->
  let s := imm_run D Mt cs (imm_init D Mt fs mu) in
  mode_probabilities Mt s /\ size (i_filters s) = N.
Proof.
move=> F fsqrt fexp flog n m l T D N Mt mu fs cs hL sM m0 m1 sN.
have [d _] : exists d : T, True by case: fs sN => [|f fs _]; [move=> N0; move: m1; rewrite big1 ?ltxx // => i; have := ltn_ord i; rewrite -[X in (_ < X)%N]N0|exists f].
have G : forall s, mode_probabilities Mt s -> size (i_filters s) = N -> size (i_lik s) = N ->
    let s' := imm_run D Mt cs s in mode_probabilities Mt s' /\ size (i_filters s') = N.
  elim: cs => [|c cs IH] s h1 h2 h3 //; rewrite [imm_run _ _ _ _]/(imm_run D Mt cs (fst (imm_step D Mt c s))).
  suff [a b c'] : [/\ mode_probabilities Mt (fst (imm_step D Mt c s)), size (i_filters (fst (imm_step D Mt c s))) = N &
      size (i_lik (fst (imm_step D Mt c s))) = N] by apply: IH.
  case: c => [u|z]; rewrite /imm_step.
    rewrite /imm_predict; set xP := List.map _ _.
    have := @imm_predict_allE F fsqrt fexp flog n m l T D d u (i_filters s) xP.
    by case: (imm_predict_all _ _ _ _) => [fs' [e|]] [/= s1 h]; split=> //; exact: etrans s1 h2.
  case E: (imm_update D Mt z s) => [s' [e|]].
    move: E; rewrite /imm_update; have := @imm_update_allE F fsqrt fexp flog n m l T D d z 0 (i_filters s) (i_lik s).
    by case: (imm_update_all _ _ _ _ _) => [[fs' lik] [e'|]] // [/= s1 s2 _] [<- _]; split; [exact: h1|exact: etrans s1 h2|exact: etrans s2 h3].
  have [_ muE _ _ _] := C29_update d h2 h3 E.
  move: E; rewrite /imm_update; have := @imm_update_allE F fsqrt fexp flog n m l T D d z 0 (i_filters s) (i_lik s).
  case: (imm_update_all _ _ _ _ _) => [[fs' lik] [e'|]] // [s1 s2 /(_ erefl) [h _]] E.
  have L0 (j : 'I_N) : 0 < (fst (f_lik D (fst (f_update D z None None (nth d (i_filters s) j)))) : F).
    have := h j; rewrite h2 => /(_ (ltn_ord j)) [hn _].
    by apply: (hL z (nth d (i_filters s) j)); case: (f_update _ _ _ _ _) hn => a b /= ->.
  have [f1 l1] : i_filters s' = fs' /\ i_lik s' = lik by case: E => <-.
  have cE : i_cbar s' = imm_cbar (o := exactO fsqrt fexp flog) Mt (i_mu s') by case: E => <-.
  have oE : i_omega s' = imm_omega (o := exactO fsqrt fexp flog) Mt (i_mu s') (i_cbar s') by case: E => <-.
  case: h1 => [_ [c0 c1] _ _ _].
  have ps : 0 < \sum_k (i_cbar s : 'rV[F]_N) 0 k * (fst (f_lik D (fst (f_update D z None None (nth d (i_filters s) k)))) : F).
    rewrite lt_def sumr_ge0 ?andbT => [|k _]; last by rewrite mulr_ge0 // ltW.
    apply/negP; rewrite psumr_eq0 => [/allP hz|k _]; last by rewrite mulr_ge0 // ltW.
    have := oner_neq0 F; rewrite -c1 big1 ?eqxx // => k _; have := hz k (mem_index_enum _).
    by rewrite mulf_eq0 (gt_eqF (L0 k)) orbF => /eqP.
  have pm : prob (i_mu s' : 'rV[F]_N).
    split=> [i|]; first by rewrite muE divr_ge0 ?(ltW ps) // mulr_ge0 // ltW.
    by rewrite (eq_bigr _ (fun i _ => muE i)) -mulr_suml divff // gt_eqF.
  have [a b c dd] := @mode_mixing F fsqrt fexp flog N Mt _ sM pm.
  split; [|by rewrite f1; exact: etrans s1 h2|by rewrite l1; exact: etrans s2 h3].
  by split=> //; rewrite ?oE cE.
apply: G => //; last by rewrite -[LHS]/(length (List.repeat _ N)) List.repeat_length.
have pm := @normalise F fsqrt fexp flog N mu m0 m1.
have [a b c dd] := @mode_mixing F fsqrt fexp flog N Mt _ sM pm; by split.
Qed.
Print Assumptions C29_mode_probabilities.

(** The mixing done by predict preserves the mixture: weighted with the predicted mode probabilities, the
    filters' mixed starting points have the mean and covariance the mixture had before. *)
Theorem C29_mixing_preserves_mixture : forall (F : realFieldType) (fsqrt fexp flog : F -> F) (n m l : nat) (T : Type)
    (D : filt (exactO fsqrt fexp flog) n m l T) (d : T) (N : nat) (Mt : 'M[F]_N) (s : imm (exactO fsqrt fexp flog) n T N),
  stochastic Mt -> mode_probabilities Mt s -> (forall j, (i_cbar s : 'rV[F]_N) 0 j != 0) ->
  let fs := i_filters s in let x := bank_x D fs d in let P := bank_P D fs d in
  let x0 (j : 'I_N) := mixmean ((i_omega s : 'M[F]_N)^~ j) x in let P0 (j : 'I_N) := mixcov ((i_omega s : 'M[F]_N)^~ j) x P in
  mixmean ((i_cbar s : 'rV[F]_N) 0) x0 = mixmean ((i_mu s : 'rV[F]_N) 0) x /\
  mixcov ((i_cbar s : 'rV[F]_N) 0) x0 P0 = mixcov ((i_mu s : 'rV[F]_N) 0) x P.
Proof.
move=> F fsqrt fexp flog n m l T D d N Mt s sM [[m0 m1] pc cE oE o1] cn fs x P x0 P0.
have M1 i : \sum_j Mt i j = 1 by have [_ <-] := sM i; apply: eq_bigr => j _; rewrite mxE.
have {}o1 j : \sum_i (i_omega s : 'M[F]_N) i j = 1 by have [_ <-] := o1 j (cn j); apply: eq_bigr => i _; rewrite !mxE.
by split; [apply: mixing_mean M1 oE|apply: (mixing_cov x P m1 M1 cE oE o1)].
Qed.
Print Assumptions C29_mixing_preserves_mixture.

(** ** P stays positive semidefinite through any history, if each filter keeps its own P so. *)
Theorem C29_psd : forall (F : realFieldType) (fsqrt fexp flog : F -> F) (n m l : nat) (T : Type)
    (D : filt (exactO fsqrt fexp flog) n m l T) (I : T -> Prop) (N : nat) (Mt : 'M[F]_N) (mu : 'rV[F]_N) (fs : list T)
    (cs : list (imm_call (exactO fsqrt fexp flog) m l)),
  (forall f, I f -> psd (f_P D f : 'M[F]_n)) -> (forall f x P, I f -> psd (P : 'M[F]_n) -> I (f_put D x P f)) ->
  (forall f u, I f -> I (fst (f_predict D u f))) -> (forall f z, I f -> I (fst (f_update D z None None f))) ->
  (forall f, I f -> I (snd (f_lik D f))) ->
  positive_likelihoods D -> stochastic Mt -> (forall i j, 0 < Mt i j) ->
  (forall i, 0 <= mu 0 i) -> 0 < \sum_i mu 0 i -> size fs = N -> List.Forall I fs ->
  psd (i_P (imm_run D Mt cs (imm_init D Mt fs mu)) : 'M[F]_n).
Proof.
move=> F fsqrt fexp flog n m l T D I N Mt mu fs cs hP hput hpr hup hlk hL sM Mp m0 m1 sN hI.
have [d _] : exists d : T, True by case: fs sN {hI} => [|f fs _]; [move=> N0; move: m1; rewrite big1 ?ltxx // => i; have := ltn_ord i; rewrite -[X in (_ < X)%N]N0|exists f].
have nI (q : list T) j : List.Forall I q -> (j < size q)%N -> I (nth d q j).
  by move=> h; elim: h j => [|f q' hf _ IH] [|j] //=; exact: IH.
have upI z i q lik : List.Forall I q -> List.Forall I (imm_update_all D z i q lik).1.1.
  move=> h; elim: h i lik => [|f q' hf hq' IH] i lik //=; have := hup f z hf.
  case: (f_update _ _ _ _ _) => [f' [e|]] /= hf'; first by constructor.
  have := hlk _ hf'; case: (f_lik D f') => L f'' /= hf''; have := IH i.+1 (set_nth lik i L).
  by case: (imm_update_all _ _ _ _ _) => [[a b] c] /= ha; constructor.
have prI u q xP : List.Forall (fun p => psd (snd p : 'M[F]_n)) xP -> List.Forall I q -> List.Forall I (imm_predict_all D u q xP).1.
  move=> hx h; elim: h xP hx => [|f q' hf hq' IH] [|[x P] xP] //= hx; first by constructor.
  have [hx1 hx2] : psd (P : 'M[F]_n) /\ List.Forall (fun p => psd (snd p : 'M[F]_n)) xP by inversion hx.
  have := hpr _ u (hput f x P hf hx1); case: (f_predict _ _ _) => [f' [e|]] /= hf'; first by constructor.
  by have := IH xP hx2; case: (imm_predict_all _ _ _ _) => [a b] /= ha; constructor.
pose s0 := imm_init D Mt fs mu; rewrite -/s0.
have mpsd q (w : nat -> F) : size q = N -> List.Forall I q -> (forall i : 'I_N, 0 <= (w i : F)) -> psd (mix_P D q w (mix_x D q w) : 'M[F]_n).
  move=> sq hq hw; rewrite (mix_PE D d _ sq); apply: mixcov_psd => // i; apply: hP; apply: nI => //; by rewrite sq.
suff G : forall k, let s := imm_run D Mt (take k cs) s0 in List.Forall I (i_filters s) /\ psd (i_P s : 'M[F]_n).
  by have [_] := G (size cs); rewrite take_size.
have R k : let s := imm_run D Mt (take k cs) s0 in mode_probabilities Mt s /\ size (i_filters s) = N.
  exact: C29_mode_probabilities.
have take_rcons' k : (k < size cs)%N -> exists c, take k.+1 cs = take k cs ++ [:: c].
  move=> hk; case: cs hk {R} => // c0 cs' hk; exists (nth c0 (c0 :: cs') k); by rewrite (take_nth c0) // cats1.
elim=> [|k [IH1 IH2]].
  rewrite take0; split=> //; apply: (mpsd fs) => // i.
  by rewrite [X in 0 <= X](mx_getE _ 0 i) mxE mulr_ge0 // invr_ge0 vsumE ltW.
case: (ltnP k (size cs)) => hk; last first.
  by rewrite take_oversize ?(leq_trans hk) //; rewrite take_oversize // in IH1 IH2.
have [[p1 _ cE oE o1] sz] := R k; have [[p1' _ _ _ _] sz'] := R k.+1; have [c ce] := take_rcons' k hk.
move: p1' sz'; rewrite ce /imm_run List.fold_left_app -/(imm_run D Mt (take k cs) s0) /=.
move: (imm_run D Mt (take k cs) s0) IH1 IH2 p1 cE oE o1 sz => s IH1 IH2 p1 cE oE o1 sz.
case: c {ce} => [u|z]; rewrite /imm_step => p1' sz'.
- move: p1' sz'; rewrite /imm_predict; set xP := List.map _ _.
  have hx : List.Forall (fun p => psd (snd p : 'M[F]_n)) xP.
    apply/List.Forall_forall => p /List.in_map_iff [j [<- hj]]; apply: mpsd => // i.
    have jN : (j < N)%N by move: hj => /List.in_seq [_ /ssrnat.ltP].
    rewrite [X in 0 <= X](mx_getE (i_omega s) i (Ordinal jN)).
    have cp : (i_cbar s : 'rV[F]_N) 0 (Ordinal jN) != 0.
      rewrite cE gt_eqF // lt_def sumr_ge0 ?andbT => [|k' _]; last by case: p1 => [h _]; rewrite mulr_ge0 // ltW.
      apply/negP; rewrite psumr_eq0 => [/allP hz|k' _]; last by case: p1 => [h _]; rewrite mulr_ge0 // ltW.
      case: p1 => [_ hs]; have := oner_neq0 F; rewrite -hs big1 ?eqxx // => k' _; have := hz k' (mem_index_enum _).
      by rewrite mulf_eq0 (gt_eqF (Mp _ _)) orbF => /eqP.
    by have [h _] := o1 _ cp; have := h i; rewrite 2!mxE.
  have := prI u _ _ hx IH1; case: (imm_predict_all _ _ _ _) => [q [e|]] /= hq p1' sz'; split=> //.
  by apply: mpsd => // i; rewrite [X in 0 <= X](mx_getE _ 0 i); case: p1'.
- move: p1' sz'; rewrite /imm_update; have := upI z 0%N _ (i_lik s) IH1.
  case: (imm_update_all _ _ _ _ _) => [[q lik] [e|]] //= hq p1' sz'; split=> //.
  by apply: mpsd => // i; rewrite [X in 0 <= X](mx_getE _ 0 i); case: p1'.
Qed.
Print Assumptions C29_psd.

(** What a filter does by itself with the calls the estimator receives. *)
Section Solo.
Variable F : realFieldType.
Variables (fsqrt fexp flog : F -> F).
Notation EO := (exactO fsqrt fexp flog).
Variables n m l : nat.
Variable T : Type.
Variable D : filt EO n m l T.
Definition solo_step (c : imm_call EO m l) (f : T) : T * option exn :=
  match c with
  | IPredict u => f_predict D u f
  | IUpdate z => match f_update D z None None f with (f, None) => (snd (f_lik D f), None) | r => r end
  end.
(** None: some call raised. *)
Definition solo_run (cs : list (imm_call EO m l)) (f : T) : option T :=
  List.fold_left (fun r c => match r with Some f => match solo_step c f with (f, None) => Some f | _ => None end | None => None end) cs (Some f).
End Solo.

(** ** A bank of N copies of one filter does what that filter does. *)
Theorem C29_identical_filters : forall (F : realFieldType) (fsqrt fexp flog : F -> F) (n m l : nat) (T : Type)
    (D : filt (exactO fsqrt fexp flog) n m l T) (f f' : T) (N : nat) (Mt : 'M[F]_N) (mu : 'rV[F]_N)
    (cs : list (imm_call (exactO fsqrt fexp flog) m l)),
  (forall f, f_put D (f_x D f) (f_P D f) f = f) -> positive_likelihoods D -> stochastic Mt -> (forall i j, 0 < Mt i j) ->
  (forall i, 0 <= mu 0 i) -> 0 < \sum_i mu 0 i ->
  solo_run D cs f = Some f' ->
  let s := imm_run D Mt cs (imm_init D Mt (nseq N f) mu) in
  [/\ i_filters s = nseq N f', i_x s = f_x D f' & i_P s = f_P D f'].
Proof.
move=> F fsqrt fexp flog n m l T D f f' N Mt mu cs hput hL sM Mp m0 m1.
set EO := exactO fsqrt fexp flog in D cs hput hL *.
have mc (w : 'I_N -> F) xx (x : 'cV[F]_n) : \sum_i w i = 1 -> (forall i, xx i = x) -> mixmean w xx = x.
  by move=> w1 xE; rewrite /mixmean (eq_bigr (fun i => w i *: x)) => [|i _]; rewrite ?xE // -scaler_suml w1 scale1r.
have mP (w : 'I_N -> F) xx (x : 'cV[F]_n) PP (P : 'M[F]_n) : \sum_i w i = 1 -> (forall i, xx i = x) -> (forall i, PP i = P) -> mixcov w xx PP = P.
  move=> w1 xE PE; rewrite /mixcov (mc _ _ x) // (eq_bigr (fun i => w i *: P)) => [|i _]; last by rewrite xE PE subrr mul0mx add0r.
  by rewrite -scaler_suml w1 scale1r.
have bx g (i : 'I_N) : bank_x D (nseq N g) f i = f_x D g by rewrite /bank_x nth_nseq ltn_ord.
have bP g (i : 'I_N) : bank_P D (nseq N g) f i = f_P D g by rewrite /bank_P nth_nseq ltn_ord.
have upd z k i g lik g1 : f_update D z None None g = (g1, None) ->
    exists lik', imm_update_all D z i (nseq k g) lik = (nseq k (snd (f_lik D g1)), lik', None).
  move=> E; elim: k i lik => [|k IH] i lik; first by exists lik.
  rewrite /= E; case: (f_lik D g1) IH => L g2 /= IH; have [lik' ->] := IH i.+1 (set_nth lik i L); by exists lik'.
have prd u k x P g g1 : f_predict D u (f_put D x P g) = (g1, None) -> imm_predict_all D u (nseq k g) (nseq k (x, P)) = (nseq k g1, None).
  by move=> E; elim: k => [|k IH] //=; rewrite E IH.
pose s0 := imm_init D Mt (nseq N f) mu; rewrite -/s0.
have sN g : size (nseq N g : list T) = N by rewrite size_nseq.
have R cs' : mode_probabilities Mt (imm_run D Mt cs' s0) /\ size (i_filters (imm_run D Mt cs' s0)) = N by exact: C29_mode_probabilities.
elim/last_ind: cs f' => [|cs c IH] f'.
  have [[[_ p1] _ _ _ _] _] := R [::]; have [xE PE] := mix_rowE D f (i_mu s0) (sN f).
  move=> [<-] s; split=> //.
  + by rewrite [i_x s]xE (mc _ _ (f_x D f)).
  + by rewrite [i_P s]PE (mP _ _ (f_x D f) _ (f_P D f)).
have [[[_ p1'] _ _ _ _] _] := R (rcons cs c); move: p1'.
rewrite /solo_run -cats1 List.fold_left_app -/(solo_run D cs f) /=.
rewrite /imm_run List.fold_left_app -/(imm_run D Mt cs s0) /=.
case E: (solo_run D cs f) => [g|] //; have [fE _ _] := IH g E; have {R} [[[p0 p1] _ cE oE o1] sz] := R cs.
move: (imm_run D Mt cs s0) fE p0 p1 cE oE o1 sz => s fE p0 p1 cE oE o1 sz.
case: c => [u|z] /=.
- case Eu: (f_predict D u g) => [g1 [e|]] //; rewrite /imm_predict fE; set xP := List.map _ _.
  have -> : xP = nseq N (f_x D g, f_P D g).
    have sx : size xP = N by rewrite /xP -[LHS]/(length xP) List.map_length List.seq_length.
    apply: (@eq_from_nth _ (f_x D g, f_P D g)) => [|j]; rewrite sx ?size_nseq // => jN.
    rewrite nth_nseq jN /xP nth_map_seq // add0n /imm_mixed (mix_PE D f _ (sN g)) (mix_xE D f _ (sN g)).
    have w1 : \sum_(i < N) mx_get (i_omega s : 'M[F]_N) i j = 1.
      have cp : (i_cbar s : 'rV[F]_N) 0 (Ordinal jN) != 0.
        rewrite cE gt_eqF // lt_def sumr_ge0 ?andbT => [|k' _]; last by rewrite mulr_ge0 // ltW.
        apply/negP; rewrite psumr_eq0 => [/allP hz|k' _]; last by rewrite mulr_ge0 // ltW.
        have := oner_neq0 F; rewrite -p1 big1 ?eqxx // => k' _; have := hz k' (mem_index_enum _).
        by rewrite mulf_eq0 (gt_eqF (Mp _ _)) orbF => /eqP.
      have [_ <-] := o1 _ cp; apply: eq_bigr => i _; rewrite 2!mxE; exact: (mx_getE _ i (Ordinal jN)).
    by rewrite (mc _ _ (f_x D g) w1 (bx g)) (mP _ _ (f_x D g) _ (f_P D g) w1 (bx g) (bP g)).
  rewrite (prd _ _ _ _ _ g1) ?hput //= => p1' [<-].
  have [xE PE] := mix_rowE D f (i_mu s) (sN g1).
  by split=> //; [rewrite xE; apply: mc|rewrite PE; apply: (mP _ _ (f_x D g1))].
- case Eu: (f_update D z None None g) => [g1 [e|]] //; rewrite /imm_update fE.
  have [lik' ->] := upd z N 0%N g (i_lik s) g1 Eu; case EL: (f_lik D g1) => [L g2] /= p1' [<-].
  set w : 'rV[F]_N := _ *: _ in p1' *; have [xE PE] := mix_rowE D f w (sN g2).
  by split=> //; [rewrite xE; apply: mc|rewrite PE; apply: (mP _ _ (f_x D g2))].
Qed.
Print Assumptions C29_identical_filters.

(** KalmanFilter objects meet the hypotheses: after an update the likelihood is positive (it is replaced by the
    least positive float when exp underflows), and assigning an object its own x and P changes nothing. *)
Theorem C29_kalman_filters_qualify : forall (F : realFieldType) (fsqrt fexp flog : F -> F) (n m l : nat) lpdf (fmin : F),
  (forall x, 0 <= fexp x) -> 0 < fmin ->
  let D := @kf_filt (exactO fsqrt fexp flog) n m l lpdf fmin in
  positive_likelihoods D /\ (forall f, f_put D (f_x D f) (f_P D f) f = f).
Proof.
move=> F fsqrt fexp flog n m l lpdf fmin e0 f0 D; split; last by case.
move=> z f f'; have : kf_lik f' = None -> 0 < (fst (f_lik D f') : F).
  rewrite /D /kf_filt; cbn [f_lik]; rewrite /kf_likelihood => ->; rewrite /kf_log_likelihood.
  case: (kf_loglik f') => [v|]; cbn [fst]; (case: ifP => //; rewrite -[seqb _ _ _]/(_ == 0); move=> h; by rewrite lt_def h e0).
move=> h E; apply: h; move: E; rewrite /D; cbn [f_update kf_filt]; case: z => [z|]; rewrite /kf_update; last by move=> [<-].
by case: (kf_inv _ _) => [SI|] // [<-].
Qed.
Print Assumptions C29_kalman_filters_qualify.

(** ** A bank of KalmanFilters with covariance matrices: whatever the history, P is positive semidefinite. *)

Theorem C29_kalman_bank : forall (F : realFieldType) (fsqrt fexp flog : F -> F) (n m l : nat) lpdf (fmin : F)
    (N : nat) (Mt : 'M[F]_N) (mu : 'rV[F]_N) (fs : list (kf (exactO fsqrt fexp flog) n m l)) (cs : list (imm_call (exactO fsqrt fexp flog) m l)),
  (forall x, 0 <= fexp x) -> 0 < fmin -> stochastic Mt -> (forall i j, 0 < Mt i j) ->
  (forall i, 0 <= mu 0 i) -> 0 < \sum_i mu 0 i -> size fs = N -> List.Forall (fun f => kf_good f) fs ->
  let D := @kf_filt (exactO fsqrt fexp flog) n m l lpdf fmin in
  let s := imm_run D Mt cs (imm_init D Mt fs mu) in
  mode_probabilities Mt s /\ psd (i_P s : 'M[F]_n).
Proof.
move=> F fsqrt fexp flog n m l lpdf fmin N Mt mu fs cs e0 f0 sM Mp m0 m1 sN hg D s.
have [hL _] := @C29_kalman_filters_qualify F fsqrt fexp flog n m l lpdf fmin e0 f0.
split; first by have [] := C29_mode_probabilities cs hL sM m0 m1 sN.
apply: (@C29_psd F fsqrt fexp flog n m l _ D (fun f => kf_good f)) => //.
- by move=> f [].
- by move=> f x P [_ h2 h3 h4 h5] pP; split.
- by move=> f u hf; have := @step_psd F fsqrt fexp flog n m l (@CPredict _ _ _ _ u None None None) f I hf.
- by move=> f z hf; have := @step_psd F fsqrt fexp flog n m l (@CUpdate _ _ _ _ z None None) f I hf.
- by move=> f hf; have := @step_psd F fsqrt fexp flog n m l (@CLik _ _ _ _ lpdf fmin) f I hf.
Qed.
Print Assumptions C29_kalman_bank.
Example C29_instance : stochastic (const_mx 2%:R^-1 : 'M[rat]_2) /\ forall i j, 0 < (const_mx 2%:R^-1 : 'M[rat]_2) i j.
Proof. by split=> [i|i j]; [split=> [j|]|]; rewrite ?mxE // !big_ord_recl big_ord0 !mxE. Qed.
