(** * C76: a KalmanFilter forgets its initial conditions. *)
From mathcomp Require Import all_ssreflect all_algebra.
From Verif Require Import Ops Exact Spec ZmodTac LinAlg Model_KF Spec_KF Spec_KF_exact Spec_KF_order Spec_KF_forget
  Proof_KF Proof_KF_exact Proof_KF_order Proof_KF_forget Prop_KF_exact.
Set Implicit Arguments.
Unset Strict Implicit.
Unset Printing Implicit Defensive.
Import Order.TTheory GRing.Theory Num.Theory.
Local Open Scope ring_scope.

(** Two filters that differ in the initial estimate only, given the same measurements and controls: whatever the history,
    the difference of the estimates, measured against the reported covariance, shrinks by (1 - d) / alpha^2 at every
    prediction whose process noise is at least the fraction d of the predicted covariance, and never grows when alpha >= 1
    (d = 0). *)
Theorem C76_estimate_forgotten : forall (F : realFieldType) (fsqrt fexp flog : F -> F) (n m l : nat) (d c : F)
    (cs : list (kf_call (exactO fsqrt fexp flog) n m l)) (s t : kf (exactO fsqrt fexp flog) n m l),
  same_model s t -> kf_P s = kf_P t -> inv_exact s -> inv_exact t -> kf_good s -> 0 < (kf_alpha_sq s : F) ->
  List.Forall (@psd_call F fsqrt fexp flog n m l) cs -> d <= 1 -> noisy d cs s -> all_ok cs s ->
  0 <= c -> (forall v : 'cV[F]_n, (v^T *m (kf_x t - kf_x s : 'cV[F]_n)) 0 0 ^+ 2 <= c * qf (kf_P s : 'M[F]_n) v) ->
  let s' := kf_run cs s in let t' := kf_run cs t in
  all_ok cs t /\ kf_P s' = kf_P t' /\
  forall v : 'cV[F]_n, (v^T *m (kf_x t' - kf_x s' : 'cV[F]_n)) 0 0 ^+ 2 <=
    c * ((1 - d) / (kf_alpha_sq s : F)) ^+ predictions cs * qf (kf_P s' : 'M[F]_n) v.
Proof.
move=> F f1 f2 f3 n m l d c cs s t h1 h2 h3 h4 h5 h6 h7 h8 h9 h10 h11 h12 s' t'.
have sq (w v : 'cV[F]_n) : qf (w *m w^T) v = (v^T *m w) 0 0 ^+ 2.
  rewrite /qf mulmxA -mulmxA.
  have -> : w^T *m v = v^T *m w by rewrite -[w^T *m v]tr11 trmx_mul trmxK.
  by rewrite mxE big_ord1 expr2.
have hn : near c s t.
  split; first by split.
  split; last by move=> v; rewrite qfB subr_ge0 sq qfZ.
  by rewrite /sym linearB /= linearZ /= trmx_mul trmxK; case: h5 => -[-> _].
have [[[_ e _ _ _] hm] hok] := near_run hn h7 h11 h8 h6 h9 h10.
split; [exact: hok|split; [exact: e|]] => v.
by case: hm => _ /(_ v); rewrite qfB subr_ge0 sq qfZ.
Qed.

(** Two filters that differ in the initial covariance (and estimate): whatever bound 1 + c there is between their
    covariances, c shrinks by 1 - d at every such prediction. *)
Theorem C76_covariance_forgotten : forall (F : realFieldType) (fsqrt fexp flog : F -> F) (n m l : nat) (d c : F)
    (cs : list (kf_call (exactO fsqrt fexp flog) n m l)) (s t : kf (exactO fsqrt fexp flog) n m l),
  same_model s t -> inv_exact s -> inv_exact t -> kf_good s -> kf_good t ->
  List.Forall (@psd_call F fsqrt fexp flog n m l) cs -> d <= 1 -> noisy d cs s -> all_ok cs s -> all_ok cs t ->
  0 <= c -> mle (kf_P t : 'M[F]_n) ((1 + c) *: (kf_P s : 'M[F]_n)) ->
  mle (kf_P (kf_run cs t) : 'M[F]_n) ((1 + c * (1 - d) ^+ predictions cs) *: (kf_P (kf_run cs s) : 'M[F]_n)).
Proof.
move=> F f1 f2 f3 n m l d c cs s t h1 h2 h3 h4 h5 h6 h7 h8 h9 h10 h11 h12.
by have [_ h] := cnear_run (conj (And5 h1 h2 h3 h4 h5) h12) h6 h11 h7 h8 h9 h10.
Qed.

(** ** When the whole state is measured *)
Section Cycles.
Variable F : realFieldType.
Variables (fsqrt fexp flog : F -> F).
Notation EO := (exactO fsqrt fexp flog).
Variables n m l : nat.
Notation kf := (kf EO n m l).

Definition cycle_post (s : kf) : 'M[F]_n := Jmx (kf_P s : 'M[F]_n) (kf_H s) (kf_R s) (Kmx (kf_P s : 'M[F]_n) (kf_H s) (kf_R s)).
Definition after_update (s : kf) (z : 'cV[F]_m) : kf := fst (kf_step (@CUpdate EO n m l (Some z) None None) s).
Definition after_cycle (s : kf) (z : 'cV[F]_m) (u : option 'cV[F]_l) : kf := fst (kf_step (@CPredict EO n m l u None None None) (after_update s z)).

Lemma step_updE z R H (s : kf) : kf_step (@CUpdate EO n m l z R H) s = kf_update (o := EO) z R H s.
Proof. by []. Qed.
Lemma predictE u (s : kf) : kf_P (fst (kf_step (@CPredict EO n m l u None None None) s)) =
  (kf_alpha_sq s : F) *: ((kf_F s : 'M[F]_n) *m kf_P s *m (kf_F s)^T) + kf_Q s.
Proof. by case: (@step_P_effect EO n m l (@CPredict EO n m l u None None None) s). Qed.

Lemma step_predE u B A Q (s : kf) : snd (kf_step (@CPredict EO n m l u B A Q) s) = None.
Proof. by []. Qed.
Lemma all_ok2 (a b : kf_call EO n m l) cs (s : kf) : snd (kf_step a s) = None -> snd (kf_step b (fst (kf_step a s))) = None ->
  all_ok cs (fst (kf_step b (fst (kf_step a s)))) -> all_ok (a :: b :: cs) s.
Proof. by move=> h1 h2 h3; split; [|split]. Qed.
Lemma noisy2 d z R H u B A Q cs (s : kf) : let a := @CUpdate EO n m l z R H in let b := @CPredict EO n m l u B A Q in
  mle (d *: (kf_P (fst (kf_step b (fst (kf_step a s)))) : 'M[F]_n)) (used_Q (fst (kf_step a s)) Q) ->
  noisy d cs (fst (kf_step b (fst (kf_step a s)))) -> noisy d (a :: b :: cs) s.
Proof. by move=> a b h1 h2; split; [|split]. Qed.
Lemma run2 (a b : kf_call EO n m l) cs (s : kf) : kf_run (a :: b :: cs) s = kf_run cs (fst (kf_step b (fst (kf_step a s)))).
Proof. by []. Qed.
Lemma run0 (s : kf) : kf_run [::] s = s. Proof. by []. Qed.
Opaque kf_step kf_run.

Lemma cycle_step (s : kf) z u : inv_exact s -> kf_good s -> pd (kf_R s : 'M[F]_m) ->
  [/\ snd (kf_step (@CUpdate EO n m l (Some z) None None) s) = None, same_model s (after_cycle s z u), inv_exact (after_cycle s z u),
   kf_good (after_cycle s z u) & kf_P (after_cycle s z u) = (kf_alpha_sq s : F) *: (kf_F s *m cycle_post s *m (kf_F s)^T) + kf_Q s] /\
  kf_Q (after_update s z) = kf_Q s.
Proof.
move=> hi hg hR.
have hg1 : kf_good (after_cycle s z u) by apply: step_psd => //; apply: step_psd.
have pP : psd (kf_P s : 'M[F]_n) by case: hg.
have uS : innov_cov s None None \in unitmx by apply: pd_unit; apply: (pd_Smx (kf_H s) pP hR).
have [e0 _ _ _ [_ _ e1]] := update_exact z hi uS.
rewrite -(step_updE (Some z) None None s) in e0 e1.
suff hh : [/\ same_model s (after_cycle s z u), inv_exact (after_cycle s z u)
   & kf_P (after_cycle s z u) = (kf_alpha_sq s : F) *: (kf_F s *m cycle_post s *m (kf_F s)^T) + kf_Q s] /\
  kf_Q (after_update s z) = kf_Q s.
  by case: hh => [[h1 h2 h3] h4]; split; [split; [exact: e0|exact: h1|exact: h2|exact: hg1|exact: h3]|exact: h4].
have c1 := @step_config EO n m l (@CUpdate EO n m l (Some z) None None) s.
have a1 := @step_alpha EO n m l (@CUpdate EO n m l (Some z) None None) s.
move: e1 c1 a1; clear e0 hg1; rewrite /after_cycle /after_update.
move: (fst (kf_step (@CUpdate EO n m l (Some z) None None) s)) => s1 e1.
case=> f1 [f2 [f3 [f4 [f5 [_ f7]]]]] [a1|[a []] //].
split; last exact: f2.
have c2 := @step_config EO n m l (@CPredict EO n m l u None None None) s1.
have a2 := @step_alpha EO n m l (@CPredict EO n m l u None None None) s1.
have p2 := predictE u s1.
move: p2 c2 a2; move: (fst (kf_step (@CPredict EO n m l u None None None) s1)) => s2 p2.
case=> g1 [g2 [g3 [g4 [g5 [_ g7]]]]] [a2|[a []] //].
split.
- by split; [split; rewrite ?g1 ?g2 ?g4 ?g5 ?a2 ?f1 ?f2 ?f4 ?f5 ?a1|rewrite g3 f3].
- by move=> A; rewrite g7 f7; exact: hi.
- by rewrite p2 f1 f2 a1 e1.
Qed.

Lemma post_recovered (s : kf) (L : 'M[F]_(n,m)) : kf_good s -> pd (kf_R s : 'M[F]_m) -> L *m kf_H s = 1%:M ->
  mle (cycle_post s) (L *m kf_R s *m L^T).
Proof.
case=> pP _ _ _ [pR _] hR hL.
have uS : Smx (kf_P s : 'M[F]_n) (kf_H s) (kf_R s) \in unitmx by apply: pd_unit; apply: pd_Smx.
by have := Jmx_opt L pP pR uS; rewrite {2}/Jmx hL subrr mul0mx mul0mx add0r.
Qed.

Lemma same_model_trans (s t w : kf) : same_model s t -> same_model t w -> same_model s w.
Proof. by rewrite /same_model => -[[-> -> -> -> ->] ->]. Qed.
Lemma same_model_sym (s t : kf) : same_model s t -> same_model t s.
Proof. by rewrite /same_model => -[[-> -> -> -> ->] ->]. Qed.

Definition bound (L : 'M[F]_(n,m)) (s : kf) : 'M[F]_n :=
  (kf_alpha_sq s : F) *: ((kf_F s : 'M[F]_n) *m (L *m kf_R s *m L^T) *m (kf_F s)^T) + kf_Q s.

Lemma cycle_bounds (s : kf) L z u : inv_exact s -> kf_good s -> pd (kf_R s : 'M[F]_m) -> L *m kf_H s = 1%:M ->
  mle (kf_Q s : 'M[F]_n) (kf_P (after_cycle s z u)) /\ mle (kf_P (after_cycle s z u) : 'M[F]_n) (bound L s).
Proof.
move=> hi hg hR hL; have [[_ _ _ _ ->] _] := cycle_step z u hi hg hR.
have a0 : 0 <= (kf_alpha_sq s : F) by case: hg => _ _ _ _ [].
have pJ : psd (cycle_post s) by apply: psd_Jmx; case: hg => ? _ _ _ [].
split; first by rewrite /mle addrK; apply: psdZ => //; apply: psd_congr.
apply: mleD; last exact: mle_refl.
by apply: mleZl => //; apply: mle_congr; apply: post_recovered.
Qed.

Lemma cyclesE z u zus : @cycles F fsqrt fexp flog n m l ((z, u) :: zus) =
  @CUpdate EO n m l (Some z) None None :: @CPredict EO n m l u None None None :: @cycles F fsqrt fexp flog n m l zus.
Proof. by []. Qed.

Lemma runC z u zus (s : kf) : kf_run (@cycles F fsqrt fexp flog n m l ((z, u) :: zus)) s =
  kf_run (@cycles F fsqrt fexp flog n m l zus) (after_cycle s z u).
Proof. by rewrite cyclesE run2. Qed.

Lemma cycles_run (zus : list ('cV[F]_m * option 'cV[F]_l)) (s : kf) d L : inv_exact s -> kf_good s -> pd (kf_R s : 'M[F]_m) ->
  0 <= d -> observed d L s ->
  [/\ all_ok (@cycles F fsqrt fexp flog n m l zus) s, noisy d (@cycles F fsqrt fexp flog n m l zus) s,
      predictions (@cycles F fsqrt fexp flog n m l zus) = size zus &
      List.Forall (@psd_call F fsqrt fexp flog n m l) (@cycles F fsqrt fexp flog n m l zus)].
Proof.
elim: zus s => [|[z u] zus IH] s hi hg hR d0 ho.
  by split=> //; constructor.
have [[e1 e2 e3 e4 e5] e6] := cycle_step z u hi hg hR.
case: (ho) => hL hQ; have [_ hb] := cycle_bounds z u hi hg hR hL.
have hR' : pd (kf_R (after_cycle s z u) : 'M[F]_m) by case: e2 => [[_ _ _ <- _] _].
have ho' : observed d L (after_cycle s z u) by move: ho; rewrite /observed; case: e2 => [[-> -> -> -> ->] _]; exact: id.
have [i1 i2 i3 i4] := IH (after_cycle s z u) e3 e4 hR' d0 ho'.
rewrite cyclesE; split.
- exact: all_ok2 e1 (step_predE _ _ _ _ _) i1.
- apply: noisy2 i2.
  rewrite /used_Q -/(after_update s z) -/(after_cycle s z u) e6.
  by apply: mle_trans hQ; apply: mleZl.
- by move: i3 => /= ->.
- by constructor; [exact: I|constructor; [exact: I|exact: i4]].
Qed.
End Cycles.

(** The estimates: (1 - d) / alpha^2 per cycle, and the covariance is bounded, so the difference goes to zero. *)
Theorem C76_observed_estimate : forall (F : realFieldType) (fsqrt fexp flog : F -> F) (n m l : nat) (d c : F)
    (zus : list ('cV[F]_m * option 'cV[F]_l)) (s t : kf (exactO fsqrt fexp flog) n m l) (L : 'M[F]_(n,m)),
  same_model s t -> kf_P s = kf_P t -> inv_exact s -> inv_exact t -> kf_good s -> 0 < (kf_alpha_sq s : F) ->
  pd (kf_R s : 'M[F]_m) -> 0 <= d -> d <= 1 -> observed d L s ->
  0 <= c -> (forall v : 'cV[F]_n, (v^T *m (kf_x t - kf_x s : 'cV[F]_n)) 0 0 ^+ 2 <= c * qf (kf_P s : 'M[F]_n) v) ->
  (0 < size zus)%N ->
  let cs := @cycles F fsqrt fexp flog n m l zus in
  forall v : 'cV[F]_n, (v^T *m (kf_x (kf_run cs t) - kf_x (kf_run cs s) : 'cV[F]_n)) 0 0 ^+ 2 <=
    c * ((1 - d) / (kf_alpha_sq s : F)) ^+ size zus *
    qf ((kf_alpha_sq s : F) *: ((kf_F s : 'M[F]_n) *m (L *m kf_R s *m L^T) *m (kf_F s)^T) + kf_Q s) v.
Proof.
move=> F f1 f2 f3 n m l d c zus s t L h1 h2 h3 h4 h5 h6 hR d0 d1 ho c0 hx hs cs v.
have [k1 k2 k3 k4] := cycles_run zus h3 h5 hR d0 ho.
have [_ [_ h]] := C76_estimate_forgotten h1 h2 h3 h4 h5 h6 k4 d1 k2 k1 c0 hx.
apply: le_trans (h v) _; rewrite k3; apply: ler_wpmul2l.
  by rewrite mulr_ge0 // exprn_ge0 // divr_ge0 ?subr_ge0 // ltW.
suff [_ /(_ v)] : mle (kf_P (kf_run cs s) : 'M[F]_n) (bound L s) by rewrite qfB subr_ge0.
rewrite /cs; clear - h3 h5 hR ho hs; elim: zus s h3 h5 hR ho hs => // -[z u] zus IH s h3 h5 hR ho _.
have [[e1 e2 e3 e4 e5] e6] := cycle_step z u h3 h5 hR.
have hR' : pd (kf_R (after_cycle s z u) : 'M[F]_m) by case: e2 => [[_ _ _ <- _] _].
have ho' : observed d L (after_cycle s z u) by move: ho; rewrite /observed; case: e2 => [[-> -> -> -> ->] _]; exact: id.
have eb : bound L (after_cycle s z u) = bound L s by rewrite /bound; case: e2 => [[-> _ -> -> ->] _].
rewrite runC.
case: zus IH => [|zu zus] IH; first by rewrite run0; have [_ h] := cycle_bounds z u h3 h5 hR (proj1 ho).
by rewrite -eb; exact: (IH (after_cycle s z u) e3 e4 hR' ho' isT).
Qed.

(** The covariances: any two initial covariances whatever end up within a factor 1 + (1/d - 1) (1 - d)^N of each other. *)
Theorem C76_observed_covariance : forall (F : realFieldType) (fsqrt fexp flog : F -> F) (n m l : nat) (d : F)
    (z : 'cV[F]_m) (u : option 'cV[F]_l) (zus : list ('cV[F]_m * option 'cV[F]_l)) (s t : kf (exactO fsqrt fexp flog) n m l) (L : 'M[F]_(n,m)),
  same_model s t -> inv_exact s -> inv_exact t -> kf_good s -> kf_good t ->
  pd (kf_R s : 'M[F]_m) -> 0 < d -> d <= 1 -> observed d L s ->
  let cs := @cycles F fsqrt fexp flog n m l ((z, u) :: zus) in
  mle (kf_P (kf_run cs t) : 'M[F]_n) ((1 + (d^-1 - 1) * (1 - d) ^+ size zus) *: (kf_P (kf_run cs s) : 'M[F]_n)).
Proof.
move=> F f1 f2 f3 n m l d z u zus s t L hm hi hj hg hg' hR d0 d1 ho cs.
have hRt : pd (kf_R t : 'M[F]_m) by case: hm => [[_ _ _ <- _] _].
have hot : observed d L t by move: ho; rewrite /observed; case: hm => [[-> -> -> -> ->] _].
have [[_ m1 i1 g1 _] _] := cycle_step z u hi hg hR.
have [[_ m2 i2 g2 _] _] := cycle_step z u hj hg' hRt.
have [q1 _] := cycle_bounds z u hi hg hR (proj1 ho).
have [_ b2] := cycle_bounds z u hj hg' hRt (proj1 hot).
have mm : same_model (after_cycle s z u) (after_cycle t z u).
  exact: same_model_trans (same_model_sym m1) (same_model_trans hm m2).
have R1 : pd (kf_R (after_cycle s z u) : 'M[F]_m) by case: m1 => [[_ _ _ <- _] _].
have R2 : pd (kf_R (after_cycle t z u) : 'M[F]_m) by case: m2 => [[_ _ _ <- _] _].
have o1 : observed d L (after_cycle s z u) by move: ho; rewrite /observed; case: m1 => [[-> -> -> -> ->] _].
have o2 : observed d L (after_cycle t z u) by move: hot; rewrite /observed; case: m2 => [[-> -> -> -> ->] _].
have [k1 k2 k3 k4] := cycles_run zus i1 g1 R1 (ltW d0) o1.
have [k5 _ _ _] := cycles_run zus i2 g2 R2 (ltW d0) o2.
have c0 : 0 <= d^-1 - 1 by rewrite subr_ge0 invf_ge1.
have hP : mle (kf_P (after_cycle t z u) : 'M[F]_n) ((1 + (d^-1 - 1)) *: (kf_P (after_cycle s z u) : 'M[F]_n)).
  rewrite addrC subrK.
  have hh : mle (d *: (kf_P (after_cycle t z u) : 'M[F]_n)) (kf_P (after_cycle s z u)).
    apply: mle_trans (mleZl (ltW d0) b2) _; apply: mle_trans q1.
    by case: hm => [[_ _ -> _ _] _]; case: hot.
  have d0' : 0 <= d^-1 by rewrite invr_ge0 ltW.
  by have := mleZl d0' hh; rewrite scalerA mulVf ?scale1r // lt0r_neq0.
have h := C76_covariance_forgotten mm i1 i2 g1 g2 k4 d1 k2 k1 k5 c0 hP.
by rewrite k3 in h; rewrite /cs !runC.
Qed.

(** Hence the covariance a filter settles at is unique: any two covariances that one cycle reproduces are equal. *)
Section Archi.
Variable F : archiFieldType.
Lemma bernoulli (d : F) N : 0 <= d -> d <= 1 -> (1 - d) ^+ N * (1 + d *+ N) <= 1.
Proof.
move=> d0 d1; elim: N => [|N IH]; first by rewrite mulr0n addr0 mulr1.
apply: le_trans IH; rewrite exprSr -mulrA; apply: ler_wpmul2l; first by rewrite exprn_ge0 // subr_ge0.
have -> : (1 - d) * (1 + d *+ N.+1) = 1 + d *+ N - d * (d *+ N.+1).
  by rewrite mulrBl mul1r mulrDr mulr1 mulrSr; zmod.
by rewrite ger_addl oppr_le0 mulr_ge0 // mulrn_wge0.
Qed.
Lemma geometric_le0 (d x y : F) : 0 < d -> d <= 1 -> 0 <= y -> (forall N, x <= y * (1 - d) ^+ N) -> x <= 0.
Proof.
move=> d0 d1 y0 h; rewrite leNgt; apply/negP => x0.
pose k := y / (x * d); have k0 : 0 <= k by rewrite divr_ge0 // mulr_ge0 // ltW.
have := h (Num.bound k); apply/negP; rewrite -ltNge.
set N := Num.bound k; have hk : k < N%:R := archi_boundP k0.
have b := bernoulli N (ltW d0) d1.
have p : 0 < 1 + d *+ N by apply: ltr_paddr; [rewrite mulrn_wge0 // ltW|exact: ltr01].
rewrite -(ltr_pmul2r p) -mulrA; apply: le_lt_trans (ler_wpmul2l y0 b) _.
rewrite mulr1 mulrDr mulr1; apply: ltr_paddl; first exact: ltW.
have -> : x * (d *+ N) = N%:R * (x * d) by rewrite -[d *+ N]mulr_natl mulrCA.
by rewrite -ltr_pdivr_mulr ?mulr_gt0.
Qed.
Lemma mle_antisym n (A B : 'M[F]_n) : mle A B -> mle B A -> A = B.
Proof.
move=> [s h1] [_ h2]; apply/eqP; rewrite eq_sym -subr_eq0; apply/eqP.
have z v : qf (B - A) v = 0.
  by apply/eqP; rewrite eq_le h1 andbT; have := h2 v; rewrite !qfB subr_ge0 subr_le0.
apply/matrixP => i j; have := psd_ker (conj s h1) (z (delta_mx j 0)).
by move/matrixP/(_ i 0); rewrite -colE !mxE.
Qed.
End Archi.

Theorem C76_unique_steady_state : forall (F : archiFieldType) (fsqrt fexp flog : F -> F) (n m l : nat) (d : F)
    (z : 'cV[F]_m) (s t : kf (exactO fsqrt fexp flog) n m l) (L : 'M[F]_(n,m)),
  same_model s t -> inv_exact s -> inv_exact t -> kf_good s -> kf_good t ->
  pd (kf_R s : 'M[F]_m) -> 0 < d -> d <= 1 -> observed d L s ->
  let cycle := @cycles F fsqrt fexp flog n m l [:: (z, None)] in
  kf_P (kf_run cycle s) = kf_P s -> kf_P (kf_run cycle t) = kf_P t -> kf_P s = kf_P t.
Proof.
move=> F f1 f2 f3 n m l d z s t L hm hi hj hg hg' hR d0 d1 ho cycle.
have hRt : pd (kf_R t : 'M[F]_m) by case: hm => [[_ _ _ <- _] _].
have hot : observed d L t by move: ho; rewrite /observed; case: hm => [[-> -> -> -> ->] _].
rewrite /cycle !runC !run0 => es et.
have fixed (N : nat) (w w' : kf (exactO f1 f2 f3) n m l) : inv_exact w -> kf_good w -> inv_exact w' -> kf_good w' -> pd (kf_R w : 'M[F]_m) ->
    same_model w w' -> kf_P w = kf_P w' -> kf_P (after_cycle w z None) = kf_P w ->
    kf_P (kf_run (@cycles F f1 f2 f3 n m l (nseq N (z, None))) w') = kf_P w.
  elim: N w' => [|N IH] w' i1 g1 i2 g2 r1 mw e1 e2; first by rewrite run0.
  have r2 : pd (kf_R w' : 'M[F]_m) by case: mw => [[_ _ _ <- _] _].
  have [[_ m2 i3 g3 p3] _] := cycle_step z None i2 g2 r2.
  have [[_ _ _ _ p1] _] := cycle_step z None i1 g1 r1.
  rewrite [nseq N.+1 _]/= runC; apply: IH => //; first exact: same_model_trans mw m2.
  rewrite p3 -{1}e2 p1 /cycle_post -e1; by case: mw => [[-> -> -> -> ->] _].
have half (w w' : kf (exactO f1 f2 f3) n m l) : same_model w w' -> inv_exact w -> inv_exact w' -> kf_good w -> kf_good w' ->
    pd (kf_R w : 'M[F]_m) -> observed d L w -> kf_P (after_cycle w z None) = kf_P w -> kf_P (after_cycle w' z None) = kf_P w' ->
    mle (kf_P w' : 'M[F]_n) (kf_P w).
  move=> mw i1 i2 g1 g2 r1 o1 e1 e2.
  have r2 : pd (kf_R w' : 'M[F]_m) by case: mw => [[_ _ _ <- _] _].
  have sm v : same_model v v by [].
  split; first by rewrite /sym linearB /=; case: g1 g2 => -[-> _] _ _ _ _ [[-> _] _ _ _ _].
  move=> v; rewrite qfB subr_ge0 -subr_le0.
  have c0 : 0 <= d^-1 - 1 by rewrite subr_ge0 invf_ge1.
  have p0 : 0 <= (d^-1 - 1) * qf (kf_P w : 'M[F]_n) v by rewrite mulr_ge0 //; case: g1 => -[_ ->].
  apply: (geometric_le0 d0 d1 p0) => N.
  have := C76_observed_covariance z None (nseq N (z, None)) mw i1 i2 g1 g2 r1 d0 d1 o1.
  cbv zeta; have -> : (z, None) :: nseq N (z, None) = nseq N.+1 (z, None : option 'cV[F]_l) by [].
  rewrite (fixed N.+1 w w) // (fixed N.+1 w' w') // size_nseq.
  case=> _ /(_ v); rewrite qfB qfZ mulrDl mul1r subr_ge0 -ler_subl_addl => h.
  by rewrite mulrAC.
apply: mle_antisym; last exact: half.
by apply: half => //; exact: same_model_sym.
Qed.

(** ** The hypotheses are met *)
(** A filter of two states, both measured; the same with another estimate, and with three times the covariance. *)
Notation RO := (exactO (F := [realFieldType of rat]) id id id).
Definition fgs : kf RO 2 2 0 := exa.
Definition fgx : kf RO 2 2 0 := @set_kf_x RO 2 2 0 (const_mx 1 : 'cV[rat]_2) exa.
Definition fgp : kf RO 2 2 0 := @set_kf_P RO 2 2 0 (3%:R *: 1%:M : 'M[rat]_2) exa.
Lemma scal_mle (x y : rat) : x <= y -> mle (x *: 1%:M : 'M[rat]_2) (y *: 1%:M).
Proof. by move=> h; rewrite /mle -scalerBl; apply: psdZ; rewrite ?subr_ge0 //; exact: psd1. Qed.
Example C76_applies : [/\ same_model fgs fgx, kf_P fgs = kf_P fgx, inv_exact fgs, inv_exact fgx & kf_good fgs] /\
  [/\ pd (kf_R fgs : 'M[rat]_2), observed (2%:R^-1 : rat) (1%:M : 'M[rat]_2) fgs, 0 < (kf_alpha_sq fgs : rat) &
    forall v : 'cV[rat]_2, (v^T *m (kf_x fgx - kf_x fgs : 'cV[rat]_2)) 0 0 ^+ 2 <= 2%:R * qf (kf_P fgs : 'M[rat]_2) v] /\
  [/\ same_model fgs fgp, inv_exact fgp, kf_good fgp & mle (kf_P fgp : 'M[rat]_2) ((1 + 2%:R) *: (kf_P fgs : 'M[rat]_2))].
Proof.
split; first by split; [|..|exact: exa_good].
split; split.
- exact: pd1.
- split; first exact: mulmx1.
  change (mle (2%:R^-1 *: ((1 : rat) *: (1%:M *m (1%:M *m 1%:M *m 1%:M^T) *m 1%:M^T) + 1%:M)) (1%:M : 'M[rat]_2)).
  rewrite !trmx1 !mulmx1 scale1r -mulr2n -scaler_nat scalerA mulVf // scale1r; exact: mle_refl.
- exact: ltr01.
- move=> v; change ((v^T *m (const_mx 1 - 0 : 'cV[rat]_2)) 0 0 ^+ 2 <= 2%:R * qf 1%:M v).
  rewrite subr0 qf1 !mxE !big_ord_recl !big_ord0 /= !mxE !mulr1 !addr0.
  set a := v _ _; set b := v _ _; rewrite -subr_ge0.
  have -> : 2%:R * (a ^+ 2 + b ^+ 2) - (a + b) ^+ 2 = (a - b) ^+ 2 by rewrite sqrrD sqrrB mulr_natl mulr2n; zmod.
  exact: sqr_ge0.
- by [].
- by [].
- have h := psdZ (ler0n [realFieldType of rat] 3) (psd1 _ 2).
  by case: exa_good => h1 h2 h3 h4 h5; split.
- change (mle (3%:R *: 1%:M : 'M[rat]_2) ((1 + 2%:R) *: 1%:M)); exact: mle_refl.
Qed.
Lemma cycle_P (F : realFieldType) (f1 f2 f3 : F -> F) (n m l : nat) (s : kf (exactO f1 f2 f3) n m l) z u :
  inv_exact s -> kf_good s -> pd (kf_R s : 'M[F]_m) ->
  kf_P (kf_run (@cycles F f1 f2 f3 n m l [:: (z, u)]) s) = (kf_alpha_sq s : F) *: (kf_F s *m cycle_post s *m (kf_F s)^T) + kf_Q s :> 'M[F]_n.
Proof. by move=> hi hg hR; rewrite runC run0; have [[_ _ _ _ h] _] := cycle_step z u hi hg hR; exact: h. Qed.
(** A covariance that a cycle reproduces: P = 2I with R = 2I and Q = I. *)
Definition fgfix : kf RO 2 2 0 := @set_kf_P RO 2 2 0 (2%:R *: 1%:M : 'M[rat]_2) (@set_kf_R RO 2 2 0 (2%:R *: 1%:M : 'M[rat]_2) exa).
Example C76_unique_applies z : [/\ inv_exact fgfix, kf_good fgfix, pd (kf_R fgfix : 'M[rat]_2) & observed (3%:R^-1 : rat) (1%:M : 'M[rat]_2) fgfix] /\
  kf_P (kf_run (@cycles [realFieldType of rat] id id id 2 2 0 [:: (z, None)]) fgfix) = kf_P fgfix.
Proof.
have h2 := psdZ (ler0n [realFieldType of rat] 2) (psd1 _ 2).
have hg : kf_good fgfix by case: exa_good => h1 h3 h4 h5 [h6 h7]; split.
have hR : pd (kf_R fgfix : 'M[rat]_2) by apply: (pdZ _ (pd1 _ 2)); rewrite ltr0n.
have hi : inv_exact fgfix by [].
split.
  split=> //; split; first exact: mulmx1.
  change (mle (3%:R^-1 *: ((1 : rat) *: (1%:M *m (1%:M *m (2%:R *: 1%:M) *m 1%:M^T) *m 1%:M^T) + 1%:M)) (1%:M : 'M[rat]_2)).
  rewrite !trmx1 !mulmx1 !mul1mx scale1r -{2}[1%:M]scale1r -scalerDl scalerA.
  by rewrite (_ : 3%:R^-1 * (2%:R + 1) = 1 :> rat) // scale1r; exact: mle_refl.
refine (eq_trans (@cycle_P _ id id id 2 2 0 fgfix z None hi hg hR) _).
change ((1 : rat) *: (1%:M *m cycle_post fgfix *m 1%:M^T) + 1%:M = 2%:R *: 1%:M :> 'M[rat]_2).
have -> : cycle_post fgfix = 1%:M.
  rewrite /cycle_post; change (Jmx (2%:R *: 1%:M : 'M[rat]_2) 1%:M (2%:R *: 1%:M) (Kmx (2%:R *: 1%:M : 'M[rat]_2) 1%:M (2%:R *: 1%:M)) = 1%:M).
  have sS : Smx (2%:R *: 1%:M : 'M[rat]_2) 1%:M (2%:R *: 1%:M) = 4%:R *: 1%:M.
    by rewrite /Smx trmx1 mulmx1 mul1mx -scalerDl.
  rewrite /Kmx sS [4%:R *: _]scalemx1 invmx_scalar trmx1 mulmx1 -[(_^-1)%:M]scalemx1 -scalemxAl -scalemxAr mulmx1 scalerA.
  have -> : (2%:R / 4%:R : rat) = 2%:R^-1 by [].
  have e : (1%:M - 2%:R^-1 *: 1%:M *m 1%:M : 'M[rat]_2) = 2%:R^-1 *: 1%:M.
    by rewrite mulmx1 -{1}[1%:M]scale1r -scalerBl.
  rewrite /Jmx e !scalemx1 !tr_scalar_mx -!scalar_mxM -raddfD /=; congr (_%:M).
by rewrite scale1r !mul1mx trmx1 -mulr2n -scaler_nat.
Qed.
Print Assumptions C76_estimate_forgotten.
Print Assumptions C76_covariance_forgotten.
Print Assumptions C76_observed_estimate.
Print Assumptions C76_observed_covariance.
Print Assumptions C76_unique_steady_state.
