(** * KalmanFilter lemmas in exact arithmetic. *)
From mathcomp Require Import all_ssreflect all_algebra.
From Verif Require Import Ops Exact Spec ZmodTac LinAlg Model_KF Spec_KF Spec_KF_exact Proof_KF.
Set Implicit Arguments.
Unset Strict Implicit.
Unset Printing Implicit Defensive.
Import Order.TTheory GRing.Theory Num.Theory.
Local Open Scope ring_scope.

Section ExactKF.
Variable F : realFieldType.
Variables (fsqrt fexp flog : F -> F).
Notation EO := (exactO fsqrt fexp flog).

(** Slices of mathcomp matrices. *)
Definition sel (k start m : nat) : 'M[F]_(k, m) := \matrix_(i, j) ((start + i)%N == j)%:R.

Lemma sel_mul m q (A : 'M[F]_(m, q)) start k (i : 'I_k) j (hi : (start + i < m)%N) :
  (sel k start m *m A) i j = A (Ordinal hi) j.
Proof.
rewrite mxE (bigD1 (Ordinal hi)) //= mxE eqxx mul1r big1 ?addr0 // => a na.
rewrite mxE (_ : (_ == _ :> nat) = false) ?mul0r //.
by apply/negbTE; apply: contra na => /eqP h; apply/eqP/val_inj; rewrite /= h.
Qed.

Lemma mslice_sel m q (A : 'M[F]_(m, q)) start c k k' :
  (start + k <= m)%N -> (c + k' <= q)%N ->
  mslice (o := EO) A start c k k' = sel k start m *m A *m (sel k' c q)^T.
Proof.
move=> hk hk'; apply/matrixP => i j; rewrite mxE /=.
have hi : (start + i < m)%N by rewrite (leq_trans _ hk) // ltn_add2l.
have hj : (c + j < q)%N by rewrite (leq_trans _ hk') // ltn_add2l.
rewrite (mx_getP A hi hj) -(trmxK (_ *m _)) mxE trmx_mul trmxK (sel_mul _ _ hj) mxE.
by rewrite (sel_mul _ _ hi).
Qed.

Lemma psd_slice m (A : 'M[F]_m) start k : (start + k <= m)%N -> psd A ->
  psd (mslice (o := EO) A start start k k).
Proof. by move=> hk pA; rewrite mslice_sel //; apply: psd_congr. Qed.

Section Filter.
Variables n m l : nat.
Notation kf := (kf EO n m l).
Notation kf_call := (kf_call EO n m l).
Implicit Types s : kf.

Lemma psd_sm_or k (d : 'M[F]_k) a : psd d -> psd_arg a -> psd (sm_or (o := EO) d a : 'M[F]_k).
Proof.
case: a => [[q|A]|] //= pd0 pa.
by apply: psdZ => //; apply: psd1.
Qed.

Lemma josephE k (P : 'M[F]_n) (K : 'M_(n,k)) H R : joseph (o := EO) P K H R = Jmx P H R K.
Proof. by []. Qed.

Lemma step_psd c s : psd_call c -> kf_good s -> kf_good (fst (kf_step c s)).
Proof.
move=> hc [pP pPr pPo pQ [pR pa]].
have := @step_P_effect EO n m l c s; have := @step_alpha EO n m l c s.
have [_ [eQ [_ [_ [eR _]]]]] := @step_config EO n m l c s.
move: eQ eR; set s' := fst _ => eQ eR ha hP.
have pQ' : psd (kf_Q s' : 'M[F]_n) by rewrite eQ.
have pR' : psd (kf_R s' : 'M[F]_m) by rewrite eR.
have pa' : 0 <= (kf_alpha_sq s' : F).
  by case: ha => [->//|[a [_ ->]]]; rewrite /= -expr2 sqr_ge0.
suff [] : [/\ psd (kf_P s' : 'M[F]_n), psd (kf_P_prior s' : 'M[F]_n) & psd (kf_P_post s' : 'M[F]_n)].
  by split.
move: s' eQ eR ha hP pQ' pR' pa' => s' _ _ _ hP _ _ _; case: c hc hP => /=.
- move=> u B Fm Q pq [-> [-> ->]]; split=> //; apply: psdD;
  by [apply: psdZ => //; apply: psd_congr | apply: psd_sm_or].
- move=> z R H pr [-> [[-> h]|[K [-> ->]]]]; first by case: h => ->.
  by split=> //; apply: psd_Jmx => //; apply: psd_sm_or.
- by move=> u B _ [-> [-> ->]].
- by move=> z _ [-> [-> ->]].
- by move=> [z|] R H // _ [-> [-> ->]].
- move=> k linv start z R H pr [-> [[-> ->]|[K [hk [-> ->]]]]] //.
  have pr' : psd (sm_or (o := EO) (mslice (kf_R s) start start k k) R : 'M[F]_k).
    by apply: psd_sm_or => //; apply: psd_slice => //; apply/ssrnat.leP.
  by split=> //; apply: psd_Jmx.
- by move=> ? _ [-> [-> ->]].
- by move=> ? ? _ [-> [-> ->]].
- by move=> _ [-> [-> ->]].
- by move=> ? _ [-> [-> ->]].
Qed.

Lemma run_psd cs s : List.Forall (@psd_call F fsqrt fexp flog n m l) cs -> kf_good s -> kf_good (kf_run cs s).
Proof.
move=> h; elim: h s => [|c cs' hc _ IH] s hs //=.
by apply: IH; apply: step_psd.
Qed.

(** Fields after a successful update. *)
Lemma update_ok s (z : 'cV[F]_m) R H SI : kf_inv s (innov_cov s R H : M EO m m) = Some SI ->
  let s' := fst (kf_update (o := EO) (Some z) R H s) in
  let K : 'M[F]_(n, m) := kf_P s *m (Hm s H)^T *m SI in
  [/\ snd (kf_update (o := EO) (Some z) R H s) = None,
      kf_y s' = z - Hm s H *m kf_x s, kf_S s' = innov_cov s R H, kf_SI s' = SI &
      [/\ kf_K s' = K, kf_x s' = kf_x s + K *m (z - Hm s H *m kf_x s) &
      kf_P s' = Jmx (kf_P s) (Hm s H) (Rm s R) K]].
Proof.
move=> e; have [e1 [e2 [e3 [e4 [e5 [e6 e7]]]]]] := @update_ok_fields EO n m l z R H SI s e.
by split; [exact: e1|exact: e5|exact: e6|exact: e7|split; [exact: e4|exact: e2|exact: e3]].
Qed.

Lemma update_exact s (z : 'cV[F]_m) R H : inv_exact s -> innov_cov s R H \in unitmx ->
  let s' := fst (kf_update (o := EO) (Some z) R H s) in
  let K := Kmx (kf_P s) (Hm s H) (Rm s R) in
  [/\ snd (kf_update (o := EO) (Some z) R H s) = None,
      kf_y s' = z - Hm s H *m kf_x s, kf_S s' = innov_cov s R H, kf_SI s' = invmx (innov_cov s R H) &
      [/\ kf_K s' = K, kf_x s' = kf_x s + K *m (z - Hm s H *m kf_x s) &
      kf_P s' = Jmx (kf_P s) (Hm s H) (Rm s R) K]].
Proof.
move=> hi uS; apply: update_ok; by rewrite hi /mx_inv uS.
Qed.

End Filter.
End ExactKF.
