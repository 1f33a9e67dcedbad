(** * KalmanFilter properties in exact arithmetic: C01-C04, C12 (update), C15. *)
From mathcomp Require Import all_ssreflect all_algebra.
From Verif Require Import Ops Exact Spec ZmodTac LinAlg Model_KF Spec_KF Spec_KF_exact Proof_KF Proof_KF_exact.
Set Implicit Arguments.
Unset Strict Implicit.
Unset Printing Implicit Defensive.
Import Order.TTheory GRing.Theory Num.Theory.
Local Open Scope ring_scope.

Notation RO := (@exactO [realFieldType of rat] (@id rat) id id).
(** The filter of the examples: dim_x = dim_z = 2, everything the identity. *)
Definition exa : kf RO 2 2 0 :=
  @set_kf_H RO 2 2 0 (1%:M : 'M[rat]_2)
    (@kf_init RO 2 2 0 (1 : rat) (@mx_inv [realFieldType of rat] 2)).

Lemma exa_good : kf_good exa.
Proof. by split; try exact: psd1; split=> //; exact: psd1. Qed.
Lemma exa_inv : inv_exact exa. Proof. by []. Qed.
Lemma exa_S : innov_cov exa None None = 2%:M.
Proof.
have -> : innov_cov exa None None = 1%:M *m (1%:M *m 1%:M^T) + (1%:M : 'M[rat]_2) by [].
by rewrite trmx1 !mulmx1 -raddfD.
Qed.
Lemma exa_unit : innov_cov exa None None \in unitmx.
Proof. by rewrite exa_S unitmxE det_scalar. Qed.

(** ** C01: whatever [self.inv] and [numpy.linalg.inv] return or raise. *)
Theorem C01_psd_forever : forall (F : realFieldType) (fsqrt fexp flog : F -> F) (n m l : nat)
    (cs : list (kf_call (exactO fsqrt fexp flog) n m l)) (s : kf (exactO fsqrt fexp flog) n m l),
  kf_good s -> List.Forall (@psd_call F fsqrt fexp flog n m l) cs ->
  let s' := kf_run cs s in
  [/\ psd (kf_P s' : 'M[F]_n), psd (kf_P_prior s' : 'M[F]_n) & psd (kf_P_post s' : 'M[F]_n)].
Proof. by move=> F f1 f2 f3 n m l cs s gs hcs; case: (run_psd hcs gs). Qed.
Print Assumptions C01_psd_forever.

Example C01_example :
  kf_good exa /\ List.Forall (@psd_call [realFieldType of rat] id id id 2 2 0)
    [:: @CPredict RO 2 2 0 None None None (Some (@Scal RO 2 (2%:R : rat)));
        @CUpdate RO 2 2 0 (Some (const_mx 1 : 'cV[rat]_2)) None None; CUpdate None None None].
Proof. by split; [exact: exa_good|repeat constructor]. Qed.

(** ** C02 *)
Theorem C02_short_form_and_shrinkage : forall (F : realFieldType) (fsqrt fexp flog : F -> F) (n m l : nat)
    (z : 'cV[F]_m) R H (s : kf (exactO fsqrt fexp flog) n m l),
  psd (kf_P s : 'M[F]_n) -> psd (Rm s R) -> inv_exact s -> innov_cov s R H \in unitmx ->
  let r := kf_update (Some z : option (M (exactO fsqrt fexp flog) m 1)) R H s in
  let s' := fst r in
  let P : 'M[F]_n := kf_P s in let P' : 'M[F]_n := kf_P s' in
  let K : 'M[F]_(n,m) := kf_K s' in let S : 'M[F]_m := kf_S s' in
  [/\ snd r = None, P' = (1%:M - K *m Hm s H) *m P, P' = P - K *m S *m K^T,
      K *m S = P *m (Hm s H)^T & mle P' P].
Proof.
move=> F f1 f2 f3 n m l z R H s pP pR hi uS r s' P P' K S.
have [e1 _ e3 _ [e5 _ e7]] := update_exact z hi uS.
have sP := psd_sym pP; have sR := psd_sym pR.
split; first exact: e1.
- by rewrite /P' /s' /K /r e7 e5 Jmx_short.
- by rewrite /P' /s' /K /S /r e7 e5 e3 Jmx_minus.
- by rewrite /K /S /s' /r e5 e3 KmxS.
- by rewrite /P' /s' /r e7; apply: Jmx_le.
Qed.
Print Assumptions C02_short_form_and_shrinkage.

Example C02_example : [/\ psd (kf_P exa : 'M[rat]_2), psd (Rm exa None), inv_exact exa &
  innov_cov exa None None \in unitmx].
Proof. by split; try exact: psd1; [exact: exa_inv|exact: exa_unit]. Qed.

(** ** C03: the gain used has the least mean-square error of all gains, and is
    the only one that attains it. *)
Theorem C03_gain_optimal : forall (F : realFieldType) (fsqrt fexp flog : F -> F) (n m l : nat)
    (z : 'cV[F]_m) R H (s : kf (exactO fsqrt fexp flog) n m l) (G : 'M[F]_(n,m)),
  psd (kf_P s : 'M[F]_n) -> psd (Rm s R) -> inv_exact s -> innov_cov s R H \in unitmx ->
  let s' := fst (kf_update (Some z : option (M (exactO fsqrt fexp flog) m 1)) R H s) in
  let cov := est_cov (kf_P s) (Hm s H) (Rm s R) in
  [/\ kf_P s' = cov (kf_K s'),
      kf_x s' = kf_x s + kf_K s' *m (z - Hm s H *m kf_x s),
      mle (kf_P s') (cov G) &
      (cov G = kf_P s' -> G = kf_K s')].
Proof.
move=> F f1 f2 f3 n m l z R H s G pP pR hi uS s' cov.
have [_ _ _ _ [e5 e6 e7]] := update_exact z hi uS.
have sP := psd_sym pP; have sR := psd_sym pR.
split.
- by rewrite /s' e7 e5.
- by rewrite /s' e6 e5.
- by rewrite /s' e7; apply: Jmx_opt.
- rewrite /s' e7 e5 => /eqP; rewrite -subr_eq0 => /eqP.
  rewrite [LHS](Jmx_gap sP sR uS) => h.
  have pdS : pd (innov_cov s R H) by apply: psd_unit_pd uS; exact: psd_Smx.
  apply/eqP; rewrite -subr_eq0; move: h; set D := G - _ => h.
  suff hD : D^T = 0 by rewrite -[D]trmxK hD trmx0.
  apply/matrixP => i j; rewrite [RHS]mxE.
  have : qf (innov_cov s R H) (col j D^T) = 0.
    have -> : col j D^T = D^T *m delta_mx j 0 by rewrite colE.
    rewrite /qf trmx_mul trmxK mulmxA -(mulmxA _ D) -(mulmxA _ (D *m _)) -/D.
    by rewrite [D *m _ *m _]h mulmx0 mul0mx mxE.
  by move/(pd_eq0 pdS)/matrixP/(_ i 0); rewrite !mxE.
Qed.
Print Assumptions C03_gain_optimal.

(** What [est_cov] means: in any finite ensemble of truths and measurements with
    the assumed second moments, P after update is the actual mean-square error
    of x, and no other gain does better. *)
Theorem C03_error_statistics : forall (F : realFieldType) (fsqrt fexp flog : F -> F) (n m l : nat)
    (T : finType) (p : T -> F) (xt : T -> 'cV[F]_n) (z : T -> 'cV[F]_m)
    R H (s : kf (exactO fsqrt fexp flog) n m l),
  inv_exact s -> innov_cov s R H \in unitmx ->
  let err t : 'cV[F]_n := xt t - kf_x s in
  let noise t : 'cV[F]_m := z t - Hm s H *m xt t in
  mean p (fun t => err t *m (err t)^T) = kf_P s ->
  mean p (fun t => noise t *m (noise t)^T) = Rm s R ->
  mean p (fun t => err t *m (noise t)^T) = 0 ->
  (forall G : 'M[F]_(n,m),
    mean p (fun t => let e := xt t - (kf_x s + G *m (z t - Hm s H *m kf_x s)) in e *m e^T)
    = est_cov (kf_P s) (Hm s H) (Rm s R) G) /\
  (forall t0, let s' t := fst (kf_update (Some (z t) : option (M (exactO fsqrt fexp flog) m 1)) R H s) in
    mean p (fun t => (xt t - kf_x (s' t)) *m (xt t - kf_x (s' t))^T) = kf_P (s' t0)).
Proof.
move=> F f1 f2 f3 n m l T p xt z R H s hi uS err noise h1 h2 h3.
have mG : forall G : 'M[F]_(n,m),
    mean p (fun t => let e := xt t - (kf_x s + G *m (z t - Hm s H *m kf_x s)) in e *m e^T)
    = est_cov (kf_P s) (Hm s H) (Rm s R) G.
  move=> G; set A := 1%:M - G *m Hm s H.
  have h3' : mean p (fun t => noise t *m (err t)^T) = 0.
    rewrite -[LHS]trmxK -[0 in RHS]trmx0; congr trmx; rewrite -h3 /mean linear_sum.
    by apply: eq_bigr => t _; rewrite linearZ /= trmx_mul trmxK.
  have -> : est_cov (kf_P s) (Hm s H) (Rm s R) G =
    A *m mean p (fun t => err t *m (err t)^T) *m A^T - A *m mean p (fun t => err t *m (noise t)^T) *m G^T
    - G *m mean p (fun t => noise t *m (err t)^T) *m A^T
    + G *m mean p (fun t => noise t *m (noise t)^T) *m G^T.
    by rewrite h1 h2 h3 h3' !mulmx0 !mul0mx !subr0.
  rewrite /mean !mulmx_sumr !mulmx_suml -!sumrB -big_split /=.
  apply: eq_bigr => t _; rewrite -!scalemxAr -!scalemxAl -!scalerBr -scalerDr; congr (_ *: _).
  have -> : xt t - (kf_x s + G *m (z t - Hm s H *m kf_x s)) = A *m err t - G *m noise t.
    by rewrite /A /err /noise; mxring.
  move: (err t) (noise t) A => e v A; mxring.
split=> // t0 s'.
have := mG (Kmx (kf_P s) (Hm s H) (Rm s R)).
have [_ _ _ _ [_ _ e7]] := update_exact (z t0) hi uS.
rewrite /s' e7 => h; apply: etrans h; rewrite /mean; apply: eq_bigr => t _.
by have [_ _ _ _ [_ e6 _]] := update_exact (z t) hi uS; rewrite e6.
Qed.
Print Assumptions C03_error_statistics.

(** An ensemble with those moments: prior error +-1, noise +-1, independent. *)
Definition exb : kf RO 1 1 0 :=
  @set_kf_H RO 1 1 0 (1%:M : 'M[rat]_1) (@kf_init RO 1 1 0 (1 : rat) (@mx_inv [realFieldType of rat] 1)).
Definition sgb (b : bool) : 'cV[rat]_1 := if b then 1%:M else - 1%:M.
Example C03_error_statistics_example :
  let p (_ : bool * bool) : rat := 1 / 4%:R in
  let xt t := sgb t.1 in let z t := sgb t.1 + sgb t.2 in
  let err t : 'cV[rat]_1 := xt t - kf_x exb in
  let noise t : 'cV[rat]_1 := z t - Hm exb None *m xt t in
  [/\ mean p (fun t => err t *m (err t)^T) = kf_P exb,
      mean p (fun t => noise t *m (noise t)^T) = Rm exb None,
      mean p (fun t => err t *m (noise t)^T) = 0 &
      innov_cov exb None None \in unitmx].
Proof.
move=> p xt z err noise.
have eE t : err t = sgb t.1 by rewrite /err -[kf_x exb]/(0 : 'cV[rat]_1) subr0.
have eN t : noise t = sgb t.2.
  by rewrite /noise -[Hm exb None]/(1%:M : 'M[rat]_1) mul1mx /z /xt addrC addKr.
have sq b : sgb b *m (sgb b)^T = 1%:M by case: b; rewrite /sgb ?mulNmx ?raddfN /= ?mulmxN ?opprK trmx1 mulmx1.
have m1 : mean p (fun=> 1%:M : 'M[rat]_1) = 1%:M.
  rewrite /mean -scaler_suml -(pair_bigA _ (fun a b => p (a, b))) /= !big_bool /p /=.
  by rewrite -[RHS]scale1r.
split.
- rewrite -[RHS]m1 /mean; apply: eq_bigr => t _; by rewrite eE sq.
- rewrite -[RHS]m1 /mean; apply: eq_bigr => t _; by rewrite eN sq.
- rewrite /mean -(pair_bigA _ (fun a b => p (a, b) *: (err (a, b) *m (noise (a, b))^T))) /=.
  apply: big1 => a _; rewrite big_bool !eE !eN /= /p -scalerDr -mulmxDr -raddfD /=.
  by rewrite addrN trmx0 mulmx0 scaler0.
- have -> : innov_cov exb None None = 1%:M *m (1%:M *m 1%:M^T) + (1%:M : 'M[rat]_1) by [].
  by rewrite trmx1 !mulmx1 -raddfD unitmxE det_scalar.
Qed.

(** ** C04 *)
Theorem C04_minimiser : forall (F : realFieldType) (fsqrt fexp flog : F -> F) (n m l : nat)
    (z : 'cV[F]_m) R H (s : kf (exactO fsqrt fexp flog) n m l),
  pd (kf_P s : 'M[F]_n) -> pd (Rm s R) -> inv_exact s ->
  let r := kf_update (Some z : option (M (exactO fsqrt fexp flog) m 1)) R H s in
  let cost := meas_cost (kf_P s) (Hm s H) (Rm s R) (kf_x s) z in
  [/\ snd r = None,
      (forall v : 'cV[F]_n, v <> kf_x (fst r) -> cost (kf_x (fst r)) < cost v) &
      kf_P (fst r) = invmx (invmx (kf_P s) + (Hm s H)^T *m invmx (Rm s R) *m Hm s H)].
Proof.
move=> F f1 f2 f3 n m l z R H s pP pR hi r cost.
have psP := pd_psd pP; have psR := pd_psd pR.
have sP := psd_sym psP; have sR := psd_sym psR.
have uS : innov_cov s R H \in unitmx by apply: pd_unit; apply: pd_Smx.
have [e1 _ _ _ [_ e6 e7]] := update_exact z hi uS.
have uP := pd_unit pP; have uR := pd_unit pR.
split; first exact: e1.
- have cs : forall v, cost v = qf (Lmx (kf_P s) (Hm s H) (Rm s R)) (v - kf_x (fst r))
      + qf (invmx (innov_cov s R H)) (z - Hm s H *m kf_x s).
    move=> v; have := complete_square sP sR uP uR uS (v - kf_x s) (z - Hm s H *m kf_x s).
    have -> : z - Hm s H *m kf_x s - Hm s H *m (v - kf_x s) = z - Hm s H *m v by mxring.
    rewrite /cost /meas_cost => ->; congr (qf _ _ + _); rewrite /r e6; zmod.
  move=> v nv; rewrite !cs subrr ltr_add2r qf0r.
  have pL : pd (Lmx (kf_P s) (Hm s H) (Rm s R)).
    apply: pdD; first exact: pd_inv.
    by apply: psd_congrT; apply: pd_psd; apply: pd_inv.
  by apply: pL.2; rewrite subr_eq0; apply/eqP.
- by rewrite /r e7 -invL.
Qed.
Print Assumptions C04_minimiser.

Example C04_example : pd (kf_P exa : 'M[rat]_2) /\ pd (Rm exa None).
Proof. by split; exact: pd1. Qed.

(** ** C12: the module-level update is the method. *)
Theorem C12_update : forall (F : realFieldType) (fsqrt fexp flog : F -> F) (n m l : nat)
    (z : option 'cV[F]_m) (R : 'M[F]_m) (H : 'M[F]_(m,n)) (s : kf (exactO fsqrt fexp flog) n m l),
  inv_exact s -> innov_cov s (Some (Mat (R : M (exactO fsqrt fexp flog) m m))) (Some H) \in unitmx ->
  let r := kf_update (z : option (M (exactO fsqrt fexp flog) m 1))
             (Some (Mat (R : M (exactO fsqrt fexp flog) m m))) (Some H) s in
  let f := f_update (o := exactO fsqrt fexp flog) (@mx_inv F m) (kf_x s) (kf_P s) z R H in
  [/\ snd r = None, fst f = (kf_x (fst r), kf_P (fst r)) &
      snd f = if z is Some _ then Some (kf_y (fst r), kf_K (fst r), kf_S (fst r)) else None].
Proof.
move=> F f1 f2 f3 n m l [z|] R H s hi uS r f; last by [].
have [e1 e2 e3 _ [e5 e6 e7]] := update_exact z hi uS.
have eS : H *m kf_P s *m H^T + R = innov_cov s (Some (Mat (R : M (exactO f1 f2 f3) m m))) (Some H).
  by rewrite /innov_cov /= mulmxA.
have ei : mx_inv (H *m kf_P s *m H^T + R) = Some (invmx (H *m kf_P s *m H^T + R)).
  by rewrite /mx_inv eS uS.
split; first exact: e1.
- by rewrite /r e6 e7 /f /f_update /= ei eS.
- by rewrite /r e2 e5 e3 /f /f_update /= ei eS.
Qed.
Print Assumptions C12_update.

Example C12_update_example :
  innov_cov exa (Some (Mat ((1%:M : 'M[rat]_2) : M RO 2 2))) (Some 1%:M) \in unitmx.
Proof. exact: exa_unit. Qed.

(** Where they differ: on a singular S the method raises, the function (bare
    except) returns a result. *)
Theorem C12_singular_differs : forall (F : realFieldType) (fsqrt fexp flog : F -> F) (n m l : nat)
    (z : 'cV[F]_m) (R : 'M[F]_m) (H : 'M[F]_(m,n)) (s : kf (exactO fsqrt fexp flog) n m l),
  inv_exact s -> innov_cov s (Some (Mat (R : M (exactO fsqrt fexp flog) m m))) (Some H) \notin unitmx ->
  snd (kf_update (Some z : option (M (exactO fsqrt fexp flog) m 1))
             (Some (Mat (R : M (exactO fsqrt fexp flog) m m))) (Some H) s) = Some LinAlgError /\
  exists K : 'M[F]_(n,m),
  fst (f_update (o := exactO fsqrt fexp flog) (@mx_inv F m) (kf_x s) (kf_P s) (Some z) R H) =
    (kf_x s + K *m (z - H *m kf_x s), est_cov (kf_P s) H R K).
Proof.
move=> F f1 f2 f3 n m l z R H s hi uS; split; last by eexists.
have e : kf_inv s (innov_cov s (Some (Mat (R : M (exactO f1 f2 f3) m m))) (Some H)
   : M (exactO f1 f2 f3) m m) = None by rewrite hi /mx_inv (negbTE uS).
exact: (@update_fails (exactO f1 f2 f3) n m l z (Some (Mat (R : M (exactO f1 f2 f3) m m))) (Some H) s e).
Qed.
Print Assumptions C12_singular_differs.
