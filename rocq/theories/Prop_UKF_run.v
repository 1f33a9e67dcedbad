(** * UnscentedKalmanFilter and KalmanFilter on the same linear history (C26). *)
From Coq Require Import ZArith QArith.
From mathcomp Require Import all_ssreflect all_algebra.
From Verif Require Import Ops Exact Spec ZmodTac FieldTac LinAlg Cholesky Model_KF Model_UKF Spec_Lin Spec_KF_exact Proof_KF_exact Spec_UKF Spec_UKF_run Prop_Kin Proof_UKF Prop_UKF Proof_UKF_lin.
Set Implicit Arguments.
Unset Strict Implicit.
Unset Printing Implicit Defensive.
Import Order.TTheory GRing.Theory Num.Theory.
Local Close Scope Q_scope.
Local Close Scope Z_scope.
Local Open Scope ring_scope.

Section Run.
Variable F : realFieldType.
Variables (fsqrt fexp flog : F -> F).
Notation EO := (exactO fsqrt fexp flog).
Variables n m l k : nat.

(** The noise matrices of a call are symmetric. *)
Definition sym_call (c : lin_call EO n m l) : Prop :=
  match c with LPredict _ Q _ _ => sym (Q : 'M[F]_n) | LUpdate _ R _ => sym (R : 'M[F]_m) end.
(** ... or positive definite (a positive semidefinite Q will do if the transition is invertible). *)
Definition pd_call (c : lin_call EO n m l) : Prop :=
  match c with
  | LPredict Fm Q _ _ => pd (Q : 'M[F]_n) \/ (psd (Q : 'M[F]_n) /\ (Fm : 'M[F]_n) \in unitmx)
  | LUpdate _ R _ => pd (R : 'M[F]_m)
  end.

Variable b : uk_base EO n m k.
Hypothesis hp : exact_points (b_pts b).
Hypothesis hb : plain b.
Variables (dQ : 'M[F]_n) (dR : 'M[F]_m).

Definition linked (f : kf EO n m l) : Prop := [/\ kf_B f = None, kf_alpha_sq f = 1 & inv_exact f].

Lemma est_inj (f : kf EO n m l) (s : uk_st EO n m k) : kf_est f = uk_est s ->
  [/\ kf_x f = (u_x s : 'rV[F]_n)^T, kf_P f = u_P s, kf_x_prior f = (u_x_prior s : 'rV[F]_n)^T /\ kf_P_prior f = u_P_prior s &
     kf_x_post f = (u_x_post s : 'rV[F]_n)^T /\ kf_P_post f = u_P_post s].
Proof. by rewrite /kf_est /uk_est => -[]. Qed.

Lemma kf_run_cons (c : kf_call EO n m l) cs f : kf_run (c :: cs) f = kf_run cs (fst (kf_step c f)).
Proof. by []. Qed.

(** One call. *)
Lemma lin_predict Fm Q B u f s s' : linked f -> kf_est f = uk_est s -> sym (u_P s : 'M[F]_n) -> sym (Q : 'M[F]_n) ->
  uk_lin_step b dQ dR (@LPredict EO n m l Fm Q B u) s = (s', None) ->
  let f' := fst (kf_step (kf_of (@LPredict EO n m l Fm Q B u)) f) in
  [/\ linked f', kf_est f' = uk_est s', sym (u_P s' : 'M[F]_n), fresh b s' & u_P s' = (Fm : 'M[F]_n) *m u_P s *m (Fm : 'M[F]_n)^T + Q].
Proof.
move=> [hB ha hi] /est_inj [ex eP [e3 e4] [e5 e6]] sP sQ /(uk_lin_predict hp hb sP sQ) [fr E].
have := est_predict Fm Q B u hB; cbv zeta; move=> [E2 [hB' [ha' hi']]].
split.
- by split; [exact: hB'|rewrite -ha; exact: ha'|move=> A; rewrite -[RHS](hi A); congr (_ A); exact: hi'].
- rewrite [LHS]E2 E e5 e6.
  have -> : apply_control Fm (kf_x f) B u = (((u_x s : 'rV[F]_n) *m (Fm : 'M[F]_n)^T + bu B u)^T : M EO n 1).
    by rewrite ex /apply_control /bu; case: B {hB E2 E hB' ha' hi'} => [B|]; case: u => [u|] //=; rewrite trmxD trmxM !trmxK ?trmx0 ?addr0.
  by rewrite ha eP /= scale1r.
- move: E => [_ -> _ _ _ _]; by rewrite /sym trmxD sQ !trmxM trmxK sP mulmxA.
- exact: fr.
- by move: E => [_ -> _ _ _ _].
Qed.

Lemma lin_update z R H f s : linked f -> kf_est f = uk_est s -> sym (u_P s : 'M[F]_n) -> sym (R : 'M[F]_m) -> fresh b s ->
  let r := uk_lin_step b dQ dR (@LUpdate EO n m l (Some z) R H) s in
  let g := kf_step (kf_of (@LUpdate EO n m l (Some z) R H)) f in
  [/\ linked (fst g), kf_est (fst g) = uk_est (fst r), sym (u_P (fst r) : 'M[F]_n), snd g = snd r &
      (snd r = None -> [/\ kf_S (fst g) = u_S (fst r), kf_K (fst g) = u_K (fst r), kf_y (fst g) = (u_y (fst r) : 'rV[F]_m)^T &
                            u_P (fst r) = Jmx (u_P s : 'M[F]_n) H R (Kmx (u_P s : 'M[F]_n) H R)])].
Proof.
move=> [hB ha hi] eq sP sR fr r g; have [ex eP [e3 e4] [e5 e6]] := est_inj eq.
have := @uk_lin_update F fsqrt fexp flog n m l k b hp hb dQ dR z R H s r sP sR fr erefl; lazy zeta.
have := @est_update EO n m l z R H f g erefl; lazy zeta => -[E2 [hB' [ha' hi']]].
have gE : kf_update (Some z) (Some (@Mat EO m R)) (Some H) f = g := erefl.
clearbody r g.
have lk : linked (fst g) by split; [rewrite hB'|rewrite ha'|move=> A; rewrite -[RHS](hi A) hi'].
have SE : madd (mdot H (mdot (kf_P f) (mtr H))) R = Smx (u_P s : 'M[F]_n) H R by rewrite eP.
move: E2; rewrite SE [kf_inv f _]hi /mx_inv; case uS: (Smx _ _ _ \in unitmx); last first.
  by move=> [h1 h2] [h3 h4]; split=> //; [rewrite h2 h4|move: h4 => [_ -> _ _ _ _]|rewrite h1 h3|rewrite h3].
move=> [h1 h2] [h3 hS hK hy h4]; split=> //.
- rewrite h2 h4 ex eP e3 e4 josephE; by [].
- move: h4 => [_ -> _ _ _ _]; exact: Jmx_sym.
- by rewrite h1 h3.
- move=> _; have uS' : innov_cov f (Some (@Mat EO m R)) (Some H) \in unitmx by rewrite [innov_cov _ _ _]SE uS.
  have := @update_exact F fsqrt fexp flog n m l f z (Some (@Mat EO m R)) (Some H) hi uS'; lazy zeta; rewrite gE => -[_ gy gS _ [gK _ _]].
  split.
  + by rewrite [LHS]gS hS [innov_cov _ _ _]SE.
  + by rewrite [LHS]gK hK /= /Hm /Rm /= eP.
  + by rewrite [LHS]gy hy trmxK /Hm /= ex.
  + by move: h4 => [_ -> _ _ _ _].
Qed.

Lemma lin_none R H f s : linked f -> kf_est f = uk_est s ->
  let r := uk_lin_step b dQ dR (@LUpdate EO n m l None R H) s in
  let g := kf_step (kf_of (@LUpdate EO n m l None R H)) f in
  [/\ linked (fst g), kf_est (fst g) = uk_est (fst r), u_P (fst r) = u_P s, snd r = None & fresh b s -> fresh b (fst r)].
Proof.
move=> [hB ha hi] /est_inj [ex eP [e3 e4] [e5 e6]] r g.
have [E1 [E2 [hB' [ha' hi']]]] := est_skip (Some (@Mat EO m R)) (Some H) f; split.
- by split; [rewrite -hB; exact: hB'|rewrite -ha; exact: ha'|move=> A; rewrite -[RHS](hi A); congr (_ A); exact: hi'].
- by rewrite [LHS]E2 ex eP e3 e4.
- by [].
- by [].
- by [].
Qed.
End Run.

(** ** C26.  Through any history of predictions and (possibly missing) measurements, different matrices in
    every call, at most one measurement per prediction: the unscented filter that raised no exception holds
    exactly the KalmanFilter's x, P, x_prior, P_prior, x_post, P_post.  Any exact sigma points
    (C24_merwe, C24_julier, C24_simplex), default or hand-written residuals that subtract. *)
Theorem C26_ukf_is_kf_on_linear : forall (F : realFieldType) (fsqrt fexp flog : F -> F) (n m l k : nat)
    (b : uk_base (exactO fsqrt fexp flog) n m k) dQ dR (cs : list (lin_call (exactO fsqrt fexp flog) n m l))
    (f : kf (exactO fsqrt fexp flog) n m l) (s s' : uk_st (exactO fsqrt fexp flog) n m k),
  exact_points (b_pts b) -> plain b -> linked f -> kf_est f = uk_est s -> sym (u_P s : 'M[F]_n) ->
  List.Forall (@sym_call F fsqrt fexp flog n m l) cs -> one_per_predict false cs = true ->
  uk_lin_run b dQ dR cs s = Some s' ->
  kf_est (kf_run (map (@kf_of _ n m l) cs) f) = uk_est s'.
Proof.
move=> F fsqrt fexp flog n m l k b dQ dR cs f s s' hp hb lk eq sP hcs.
suff G : forall p, (p = true -> fresh b s) -> one_per_predict p cs = true -> uk_lin_run b dQ dR cs s = Some s' ->
    kf_est (kf_run (map (@kf_of _ n m l) cs) f) = uk_est s' by apply: G.
elim: hcs f s lk eq sP => [|c cs' hc _ IH] f s lk eq sP p hpr wf.
  by move=> [<-].
cbn [uk_lin_run map]; case E: (uk_lin_step b dQ dR c s) => [s1 [e|]] // run.
rewrite kf_run_cons.
case: c hc wf E => [Fm Q B u|[z|] R H] hc wf E.
- have [lk1 eq1 sP1 fr1 _] := lin_predict hp hb lk eq sP hc E.
  by apply: (IH _ _ lk1 eq1 sP1 true).
- move: wf => /andP[/hpr fr wf].
  have := lin_update hp hb dQ dR z H lk eq sP hc fr; rewrite E; move=> [lk1 eq1 sP1 _ _].
  by apply: (IH _ _ lk1 eq1 sP1 false).
- have := lin_none b dQ dR R H lk eq; rewrite E; move=> [lk1 eq1 eP _ fr1].
  apply: (IH _ _ lk1 eq1 _ p) => //; first by rewrite [u_P s1]eP.
  by move=> /hpr.
Qed.
Print Assumptions C26_ukf_is_kf_on_linear.

(** The three families of sigma points are exact. *)
Lemma merwe_exact (F : realFieldType) (fsqrt fexp flog : F -> F) n alpha beta kappa sqrt :
  sqrt_ok sqrt -> alpha ^+ 2 * (n%:R + kappa) != 0 ->
  exact_points (@merwe_points (exactO fsqrt fexp flog) n alpha beta kappa sqrt msub).
Proof. by move=> h1 h2 x P sig sP e; have [] := C24_merwe (P := @Mat (exactO fsqrt fexp flog) n P) h1 sP h2 e. Qed.
Lemma julier_exact (F : realFieldType) (fsqrt fexp flog : F -> F) n kappa sqrt :
  sqrt_ok sqrt -> n%:R + kappa != 0 -> exact_points (@julier_points (exactO fsqrt fexp flog) n kappa sqrt msub).
Proof. by move=> h1 h2 x P sig sP e; have := C24_julier (P := @Mat (exactO fsqrt fexp flog) n P) h1 sP h2 e. Qed.
Lemma simplex_exact (F : realFieldType) (fsqrt fexp flog : F -> F) n sqrt :
  sqrt_ok sqrt -> (forall v, 0 <= v -> fsqrt v ^+ 2 = v) ->
  exact_points (@simplex_points (exactO fsqrt fexp flog) n.+1 sqrt (@simplex_sub (exactO fsqrt fexp flog) n.+1)).
Proof. by move=> h1 h2 x P sig sP e; have := C24_simplex (P := @Mat (exactO fsqrt fexp flog) n.+1 P) h1 sP h2 e. Qed.

(** A measurement after such a history: same innovation covariance, gain, residual, same exception. *)
Theorem C26_update_details : forall (F : realFieldType) (fsqrt fexp flog : F -> F) (n m l k : nat)
    (b : uk_base (exactO fsqrt fexp flog) n m k) dQ dR z R H
    (f : kf (exactO fsqrt fexp flog) n m l) (s : uk_st (exactO fsqrt fexp flog) n m k),
  exact_points (b_pts b) -> plain b -> linked f -> kf_est f = uk_est s -> sym (u_P s : 'M[F]_n) -> sym (R : 'M[F]_m) ->
  fresh b s ->
  let r := uk_lin_step b dQ dR (@LUpdate (exactO fsqrt fexp flog) n m l (Some z) R H) s in
  let g := kf_step (kf_of (@LUpdate (exactO fsqrt fexp flog) n m l (Some z) R H)) f in
  snd g = snd r /\ kf_est (fst g) = uk_est (fst r) /\
  (snd r = None -> kf_S (fst g) = u_S (fst r) /\ kf_K (fst g) = u_K (fst r) /\ kf_y (fst g) = (u_y (fst r) : 'rV[F]_m)^T).
Proof.
move=> F fsqrt fexp flog n m l k b dQ dR z R H f s hp hb lk eq sP sR fr r g.
have [_ h1 _ h2 h3] := @lin_update F fsqrt fexp flog n m l k b hp hb dQ dR z R H f s lk eq sP sR fr.
by split; [exact: h2|split; [exact: h1|move=> /h3 [? ? ? _]]].
Qed.
Print Assumptions C26_update_details.

(** With positive definite covariances, and sigma points that exist for every positive definite P, nothing
    in such a history ever raises. *)
Theorem C26_never_raises : forall (F : realFieldType) (fsqrt fexp flog : F -> F) (n m l k : nat)
    (b : uk_base (exactO fsqrt fexp flog) n m k) dQ dR (cs : list (lin_call (exactO fsqrt fexp flog) n m l))
    (s : uk_st (exactO fsqrt fexp flog) n m k),
  exact_points (b_pts b) -> plain b ->
  (forall (x : 'rV[F]_n) (P : 'M[F]_n), pd P -> exists sig, pt_sigmas (b_pts b) x (@Mat (exactO fsqrt fexp flog) n P) = Ok sig) ->
  pd (u_P s : 'M[F]_n) -> List.Forall (@pd_call F fsqrt fexp flog n m l) cs -> one_per_predict false cs = true ->
  exists s', uk_lin_run b dQ dR cs s = Some s'.
Proof.
move=> F fsqrt fexp flog n m l k b dQ dR cs s hp hb tot pP hcs.
suff G : forall p, (p = true -> fresh b s) -> one_per_predict p cs = true -> exists s', uk_lin_run b dQ dR cs s = Some s' by apply: G.
elim: hcs s pP => [|c cs' hc _ IH] s pP p hpr wf; first by exists s.
cbn [uk_lin_run]; case: c hc wf => [Fm Q B u|[z|] R H] hc wf.
- have sQ : sym (Q : 'M[F]_n) by case: hc => [[]|[[]]].
  case E: (uk_lin_step b dQ dR _ s) => [s1 [e|]].
    exfalso; move: E; rewrite /uk_lin_step /uk_of; unfold uk_step; rewrite /uk_predict /uk_process_sigmas; ucbn.
    have [sig Es] := tot (u_x s) (u_P s) pP; rewrite Es.
    have -> : map_rows (o := exactO fsqrt fexp flog) (fun x => lin_fx Fm B u x (b_dt b)) sig (u_sigmas_f s) = affine_rows sig Fm (bu B u).
      rewrite map_rowsE; apply/matrixP => i j; rewrite mxE lin_fxE !mxE; congr (_ + _); apply: eq_bigr => t _; rewrite !mxE //.
    have rep := hp _ _ _ (pd_sym pP) Es; case: (hb) => h1 _ _ _.
    rewrite (@C25_affine F fsqrt fexp flog k n n sig _ _ _ _ Fm (bu B u) (Some Q) (b_rx b) h1 rep).
    have pd1 : pd ((Fm : 'M[F]_n) *m u_P s *m (Fm : 'M[F]_n)^T + Q).
      case: hc => [hQ|[hQ uF]]; [apply: pdDr => //; exact: psd_congr (pd_psd pP)|apply: pdD => //; exact: pd_congr].
    by have [sig' ->] := tot ((u_x s : 'rV[F]_n) *m (Fm : 'M[F]_n)^T + bu B u) _ pd1.
  have [fr E1] := uk_lin_predict hp hb (pd_sym pP) sQ E.
  apply: (IH s1 _ true) => //.
  move: E1 => [_ -> _ _ _ _].
  case: hc => [hQ|[hQ uF]]; [apply: pdDr => //; exact: psd_congr (pd_psd pP)|apply: pdD => //; exact: pd_congr].
- move: wf => /andP[/hpr fr wf].
  have pS : pd (Smx (u_P s : 'M[F]_n) H R) by apply: pd_Smx => //; exact: pd_psd.
  case E: (uk_lin_step b dQ dR _ s) => [s1 e].
  have := @uk_lin_update F fsqrt fexp flog n m l k b hp hb dQ dR z R H s _ (pd_sym pP) (pd_sym hc) fr E; lazy zeta.
  rewrite (pd_unit pS) => -[/= -> _ _ _ [_ eP _ _ _ _]].
  apply: (IH s1 _ false) => //; rewrite eP.
  apply: psd_unit_pd; first by apply: psd_Jmx; exact: pd_psd.
  have pP' := pd_sym pP; have pR := pd_sym hc; have uP := pd_unit pP; have uR := pd_unit hc; have uS := pd_unit pS.
  by apply: unit_J.
- case E: (uk_lin_step b dQ dR _ s) => [s1 e]; move: E => [<- <-].
  by apply: (IH _ _ p) => // /hpr.
Qed.
Print Assumptions C26_never_raises.
