(** * CubatureKalmanFilter (C27). *)
From Coq Require Import ZArith QArith.
From mathcomp Require Import all_ssreflect all_algebra.
From Verif Require Import Ops Exact Spec ZmodTac FieldTac LinAlg Cholesky Model_Common Model_KF Model_UKF Model_CKF Spec_Lin Spec_KF_exact Proof_KF_exact Spec_UKF Spec_UKF_run Spec_CKF Prop_Kin Proof_UKF Prop_UKF Proof_UKF_lin Prop_UKF_run Proof_CKF Proof_Moments.
Set Implicit Arguments.
Unset Strict Implicit.
Unset Printing Implicit Defensive.
Import Order.TTheory GRing.Theory Num.Theory.
Local Close Scope Q_scope.
Local Close Scope Z_scope.
Local Open Scope ring_scope.

(** ** The points and the transform.  2n equally weighted points have mean x and covariance P, for every
    factorisation U^T U = P. *)
Theorem C27_points : forall (F : realFieldType) (fsqrt fexp flog : F -> F) (n : nat) chol (x : 'cV[F]_n) (P : 'M[F]_n) sig,
  (0 < n)%N -> fsqrt n%:R ^+ 2 = n%:R -> (forall U, chol P = Some U -> U^T *m U = P) ->
  spherical_radial_sigmas (o := exactO fsqrt fexp flog) chol x P = Ok sig ->
  represents (equal_weights F (n + n)) (equal_weights F (n + n)) sig x^T P.
Proof. move=> F f1 f2 f3 n chol x P sig; exact: sigmas_represent. Qed.
Print Assumptions C27_points.

(** ckf_transform is the mean of the rows and their covariance (divided by their number) plus the noise. *)
Theorem C27_transform : forall (F : realFieldType) (fsqrt fexp flog : F -> F) (q p : nat) (X : 'M[F]_(q, p)) (Q : 'M[F]_p),
  (0 < q)%N -> let w := equal_weights F q in
  ckf_transform (o := exactO fsqrt fexp flog) X Q = ((wmean w X)^T : 'cV[F]_p, wcov w X (wmean w X) + Q).
Proof. move=> F f1 f2 f3 q p X Q; exact: transformE. Qed.
Print Assumptions C27_transform.

Section Run.
Variable F : realFieldType.
Variables (fsqrt fexp flog : F -> F).
Notation EO := (exactO fsqrt fexp flog).
Variables n m l : nat.
Notation eqw := (equal_weights F).
Notation k := (n + n)%N.
Hypothesis n0 : (0 < n)%N.
Hypothesis hs : fsqrt n%:R ^+ 2 = n%:R.
Variable chol : 'M[F]_n -> option 'M[F]_n.
Hypothesis hc : sqrt_ok chol.
Variables (dt : F) (dQ : 'M[F]_n) (dR : 'M[F]_m).
Notation inv := (@mx_inv F m).
Notation step := (@ck_lin_step EO n m l chol inv dt dQ dR).

Lemma k0 : (0 < n + n)%N. Proof. by rewrite addn_gt0 n0. Qed.

Lemma ck_lin_predict (Fm Q : 'M[F]_n) B u (s : ck_st EO n m) s' : sym (c_P s : 'M[F]_n) ->
  step (@LPredict EO n m l Fm Q B u) s = (s', None) ->
  let P0 := Fm *m c_P s *m Fm^T in
  [/\ (c_x s' : 'cV[F]_n) = apply_control (o := EO) Fm (c_x s) B u, (c_P s' : 'M[F]_n) = P0 + Q &
      represents (eqw k) (eqw k) (c_sigmas_f s') (c_x s' : 'cV[F]_n)^T P0].
Proof.
move=> sP; rewrite /ck_lin_step /ck_of; unfold ck_step; rewrite /ck_predict; cbn [cc_chol cc_fx cc_dt cc_Q opt_or].
case e: (spherical_radial_sigmas _ _ _) => [sig|] //.
have rep := sigmas_represent n0 hs (fun U => hc sP) e.
have -> : map_rows (o := EO) (fun x => lin_fx (o := EO) Fm B u x dt) sig (c_sigmas_f s) = affine_rows (sig : 'M[F]_(k, n)) Fm (bu B u).
  rewrite map_rowsE; apply/matrixP => i j; rewrite mxE lin_fxE !mxE; congr (_ + _); apply: eq_bigr => t _; rewrite !mxE.
have rep' := represents_affine Fm (bu B u) rep.
rewrite transformE ?k0 //; case: rep' (rep') => _ -> -> rep'.
move=> [<-]; cbn [c_x c_P c_sigmas_f]; split=> //; last by rewrite trmxK.
by rewrite trmxD trmxM !trmxK /apply_control /bu; case: B {e rep' rep} => [B|]; case: u => [u|] //=; rewrite ?trmxK ?trmx0 ?addr0.
Qed.

(** Measurement z against points that represent (x, P0). *)
Lemma ck_lin_update (z : 'cV[F]_m) (R : 'M[F]_m) (H : 'M[F]_(m, n)) (s : ck_st EO n m) s' (P0 : 'M[F]_n) :
  sym P0 -> sym R -> represents (eqw k) (eqw k) (c_sigmas_f s) (c_x s : 'cV[F]_n)^T P0 ->
  step (@LUpdate EO n m l (Some (z : M EO m 1)) R H) s = (s', None) ->
  [/\ Smx P0 H R \in unitmx, (c_S s' : 'M[F]_m) = Smx P0 H R, (c_K s' : 'M[F]_(n, m)) = Kmx P0 H R,
      (c_x s' : 'cV[F]_n) = (c_x s : 'cV[F]_n) + Kmx P0 H R *m (z - H *m (c_x s : 'cV[F]_n)) &
      (c_P s' : 'M[F]_n) = Jmx P0 H R (Kmx P0 H R) + ((c_P s : 'M[F]_n) - P0)].
Proof.
move=> sP sR rep; rewrite /ck_lin_step /ck_of; unfold ck_step; rewrite /ck_update /ck_measure; cbn [cc_hx cc_R cc_inv cc_residual_z sm_or].
have -> : map_rows (o := EO) (lin_hx (o := EO) H) (c_sigmas_f s) (c_sigmas_h s) = affine_rows (c_sigmas_f s : 'M[F]_(k, n)) H 0.
  rewrite map_rowsE; apply/matrixP => i j; rewrite !mxE addr0; reflexivity.
have rep' := represents_affine H 0 rep.
rewrite transformE ?k0 //; case: rep' (rep') => _ -> -> rep'.
have -> : H *m P0 *m H^T + R = Smx P0 H R by rewrite /Smx mulmxA.
rewrite /mx_inv; case uS: (_ \in unitmx) => //.
rewrite crossE; have -> : mtr (((c_x s : 'cV[F]_n)^T *m H^T + 0)^T : M EO m 1) = (c_x s : 'cV[F]_n)^T *m H^T + 0 by exact: trmxK.
rewrite wxcov_lin; case: rep => _ _ -> [<-]; cbn [c_x c_P c_S c_K].
have e4 (x : 'cV[F]_n) : x + Kmx P0 H R *m (z - (x^T *m H^T + 0)^T) = x + Kmx P0 H R *m (z - H *m x).
  by rewrite addr0 trmxM !trmxK.
have e5 (P : 'M[F]_n) : P - Kmx P0 H R *m Smx P0 H R *m (Kmx P0 H R)^T = Jmx P0 H R (Kmx P0 H R) + (P - P0).
  by rewrite (Jmx_minus sP sR uS) [RHS]addrC addrA subrK.
split; [by []|by []|exact: erefl|exact: e4|exact: e5].
Qed.
End Run.

Lemma est_xP (o : nops) n m l (f : kf o n m l) a b c d e g : kf_est f = mkEst a b c d e g -> kf_x f = a /\ kf_P f = b.
Proof. by move=> h; split; [have := f_equal (@e1 o n) h|have := f_equal (@e2 o n) h]. Qed.

(** ** C27.  Through any history of predictions and (possibly missing) measurements, at most one measurement
    per prediction, the filter's x and P are those of a KalmanFilter that receives each prediction's
    process noise only after the measurement: update's gain is computed without Q. *)
Theorem C27_is_kf_with_delayed_noise : forall (F : realFieldType) (fsqrt fexp flog : F -> F) (n m l : nat)
    (chol : 'M[F]_n -> option 'M[F]_n) dt dQ dR (cs : list (lin_call (exactO fsqrt fexp flog) n m l))
    (f : kf (exactO fsqrt fexp flog) n m l) (s s' : ck_st (exactO fsqrt fexp flog) n m),
  (0 < n)%N -> fsqrt n%:R ^+ 2 = n%:R -> sqrt_ok chol ->
  linked f -> kf_x f = c_x s -> kf_P f = c_P s -> sym (c_P s : 'M[F]_n) ->
  List.Forall (@sym_call F fsqrt fexp flog n m l) cs -> one_per_predict false cs = true ->
  ck_lin_run (o := exactO fsqrt fexp flog) chol (@mx_inv F m) dt dQ dR cs s = Some s' ->
  let f' := kf_run (map (@kf_of _ n m l) (delay (mzeros n n) cs)) f in
  kf_x f' = c_x s' /\ kf_P f' = c_P s'.
Proof.
move=> F fsqrt fexp flog n m l chol dt dQ dR cs f s s' n0 hs hc lk ex eP sP hcs.
set EO := exactO fsqrt fexp flog in f s s' cs lk ex eP sP hcs *.
suff G : forall (q : 'M[F]_n) p f s, linked f -> kf_x f = c_x s -> (kf_P f : 'M[F]_n) + q = c_P s -> sym (kf_P f : 'M[F]_n) -> sym q ->
    (p = true -> represents (equal_weights F (n + n)) (equal_weights F (n + n)) (c_sigmas_f s) (c_x s : 'cV[F]_n)^T (kf_P f : 'M[F]_n)) ->
    one_per_predict p cs = true -> ck_lin_run (o := EO) chol (@mx_inv F m) dt dQ dR cs s = Some s' ->
    kf_x (kf_run (map (@kf_of _ n m l) (delay (q : M EO n n) cs)) f) = c_x s' /\ kf_P (kf_run (map (@kf_of _ n m l) (delay (q : M EO n n) cs)) f) = c_P s'.
  move=> h1 h2; apply: (G _ false f s) => //; [by rewrite addr0|by rewrite eP|by rewrite /sym trmx0].
elim: hcs {f s lk ex eP sP} => [|c cs' hcc _ IH] q p f s lk ex eP sP sq hp wf.
  move=> [<-]; rewrite [delay _ _]/= [map _ _]/= kf_run_cons.
  case: lk => hB ha hi; have := est_predict (meye n : M EO n n) (q : M EO n n) None None hB; cbv zeta.
  move=> [/est_xP [E1 E2] _].
  split; first by rewrite [LHS]E1 /apply_control ex; exact: mul1mx.
  by rewrite [LHS]E2 ha /= scale1r trmx1 mul1mx mulmx1.
cbn [ck_lin_run]; case E: (@ck_lin_step EO n m l chol _ dt dQ dR c s) => [s1 [e|]] // run.
case: c hcc wf E => [Fm Q B u|[z|] R H] hcc wf E.
- rewrite [delay _ _]/= [map _ _]/= !kf_run_cons.
  have sPs : sym (c_P s : 'M[F]_n) by rewrite -eP /sym trmxD sP sq.
  have [x1 P1 r1] := ck_lin_predict n0 hs hc sPs E.
  case: (lk) => hB ha hi; have := est_predict (meye n : M EO n n) (q : M EO n n) None None hB; cbv zeta.
  set f1 := kf_predict _ _ _ _ f; move=> [E2 [hB1 [ha1 hi1]]]; rewrite -[fst (kf_step _ f)]/f1.
  clearbody f1; case: (est_xP E2) => a1 a2 {E2}.
  have := est_predict (Fm : M EO n n) (mzeros n n : M EO n n) B u hB1; cbv zeta.
  set f2 := kf_predict _ _ _ _ f1; move=> [E2 [hB2 [ha2 hi2]]]; rewrite -[fst (kf_step _ f1)]/f2.
  clearbody f2; case: (est_xP E2) => b1 b2.
  have x1f : kf_x f1 = c_x s by rewrite a1 /apply_control ex; exact: mul1mx.
  have P1f : kf_P f1 = c_P s by rewrite a2 ha /= scale1r trmx1 mul1mx mulmx1.
  have P2f : kf_P f2 = Fm *m c_P s *m Fm^T by rewrite b2 ha1 ha P1f /= scale1r addr0.
  apply: (IH Q true f2 s1) => //.
  + by split; [|rewrite ha2 ha1|move=> A; rewrite hi2 hi1].
  + by rewrite b1 x1f x1.
  + by rewrite P2f P1.
  + by rewrite P2f /sym !trmxM trmxK sPs mulmxA.
  + by move=> _; rewrite P2f.
- rewrite [delay _ _]/= [map _ _]/= kf_run_cons; move: wf => /andP[/hp rep wf].
  have [uS SE KE xE PE] := ck_lin_update n0 sP hcc rep E.
  set g := kf_step _ f.
  have gE : kf_update (Some (z : M EO m 1)) (Some (@Mat EO m R)) (Some (H : M EO m n)) f = g := erefl.
  have := @est_update EO n m l z R H f g gE; lazy zeta => -[E2 [hB' [ha' hi']]].
  clearbody g; case: (lk) => hB ha hi; move: E2.
  have -> : madd (mdot H (mdot (kf_P f) (mtr H))) R = Smx (kf_P f : 'M[F]_n) H R by [].
  rewrite [kf_inv f _]hi /mx_inv uS => -[g1 /est_xP [x2 P2]].
  have P2' : (kf_P (fst g) : 'M[F]_n) = Jmx (kf_P f : 'M[F]_n) H R (Kmx (kf_P f : 'M[F]_n) H R) by rewrite P2 josephE.
  apply: (IH q false (fst g) s1) => //.
  + by split; [rewrite hB'|rewrite ha'|move=> A; rewrite hi'].
  + by rewrite x2 xE ex.
  + by rewrite P2' PE -eP; congr (_ + _); rewrite addrAC subrr add0r.
  + by rewrite P2'; exact: Jmx_sym.
- rewrite [delay _ _]/= [map _ _]/= kf_run_cons.
  have [E1 [E2 [hB' [ha' hi']]]] := est_skip (Some (@Mat EO m R)) (Some H) f.
  set g := kf_step _ f; have gE : kf_update None (Some (@Mat EO m R)) (Some (H : M EO m n)) f = g := erefl.
  rewrite gE in E1 E2 hB' ha' hi'; clearbody g; case: (est_xP E2) => x2 P2.
  case: (lk) => hB ha hi; move: E => [e1]; have [xs [Ps sf]] : c_x s1 = c_x s /\ c_P s1 = c_P s /\ c_sigmas_f s1 = c_sigmas_f s by rewrite -e1.
  apply: (IH q p (fst g) s1) => //.
  + by split; [rewrite hB'|rewrite ha'|move=> A; rewrite hi'].
  + by rewrite x2 xs.
  + by rewrite P2 Ps.
  + by rewrite P2.
  + by move=> /hp; rewrite xs sf P2.
Qed.
Print Assumptions C27_is_kf_with_delayed_noise.

(** Two KalmanFilters with the same x and P still agree after any call. *)
Lemma kf_cong (F : realFieldType) (fsqrt fexp flog : F -> F) (n m l : nat) (c : lin_call (exactO fsqrt fexp flog) n m l)
    (f g : kf (exactO fsqrt fexp flog) n m l) : linked f -> linked g -> kf_x f = kf_x g -> kf_P f = kf_P g ->
  let f' := fst (kf_step (kf_of c) f) in let g' := fst (kf_step (kf_of c) g) in
  [/\ linked f', linked g', kf_x f' = kf_x g' & kf_P f' = kf_P g'].
Proof.
set EO := exactO fsqrt fexp flog in c f g *.
move=> [hB ha hi] [gB ga gi] ex eP; case: c => [Fm Q B u|[z|] R H].
- have := est_predict (Fm : M EO n n) Q B u hB; have := est_predict (Fm : M EO n n) Q B u gB; cbv zeta.
  set f1 := kf_predict _ _ _ _ f; set g1 := kf_predict _ _ _ _ g; rewrite -[fst (kf_step _ f)]/f1 -[fst (kf_step _ g)]/g1.
  clearbody f1 g1; move=> [/est_xP [a1 a2] [a3 [a4 a5]]] [/est_xP [b1 b2] [b3 [b4 b5]]].
  split; [by split; [|rewrite b4|move=> A; rewrite b5]|by split; [|rewrite a4|move=> A; rewrite a5]|by rewrite a1 b1 ex|by rewrite a2 b2 ha ga eP].
- set f1 := kf_step _ f; set g1 := kf_step _ g.
  have fE : kf_update (Some (z : M EO m 1)) (Some (@Mat EO m R)) (Some (H : M EO m n)) f = f1 := erefl.
  have gE : kf_update (Some (z : M EO m 1)) (Some (@Mat EO m R)) (Some (H : M EO m n)) g = g1 := erefl.
  have := @est_update EO n m l z R H f f1 fE; have := @est_update EO n m l z R H g g1 gE; lazy zeta.
  clearbody f1 g1; rewrite [kf_inv f _]hi [kf_inv g _]gi ex eP.
  case: (mx_inv _) => [SI|].
    move=> [[_ /est_xP [a1 a2]] [a3 [a4 a5]]] [[_ /est_xP [b1 b2]] [b3 [b4 b5]]].
    by split; [split; [rewrite b3|rewrite b4|move=> A; rewrite b5]|split; [rewrite a3|rewrite a4|move=> A; rewrite a5]|rewrite a1 b1|rewrite a2 b2].
  move=> [[_ a1] [a3 [a4 a5]]] [[_ b1] [b3 [b4 b5]]]; case: (est_xP (a1 : _ = mkEst _ _ _ _ _ _)) => c1 c2.
  case: (est_xP (b1 : _ = mkEst _ _ _ _ _ _)) => d1 d2.
  by split; [split; [rewrite b3|rewrite b4|move=> A; rewrite b5]|split; [rewrite a3|rewrite a4|move=> A; rewrite a5]|rewrite c1 d1|rewrite c2 d2].
- have := est_skip (Some (@Mat EO m R)) (Some H) f; have := est_skip (Some (@Mat EO m R)) (Some H) g; lazy zeta.
  set f1 := kf_step _ f; set g1 := kf_step _ g.
  have fE : kf_update None (Some (@Mat EO m R)) (Some (H : M EO m n)) f = f1 := erefl.
  have gE : kf_update None (Some (@Mat EO m R)) (Some (H : M EO m n)) g = g1 := erefl.
  rewrite fE gE; clearbody f1 g1; move=> [_ [/est_xP [a1 a2] [a3 [a4 a5]]]] [_ [/est_xP [b1 b2] [b3 [b4 b5]]]].
  by split; [split; [rewrite b3|rewrite b4|move=> A; rewrite b5]|split; [rewrite a3|rewrite a4|move=> A; rewrite a5]|rewrite a1 b1|rewrite a2 b2].
Qed.

Lemma run_cons (o : nops) n m l (c : lin_call o n m l) cs f :
  kf_run (map (@kf_of _ n m l) (c :: cs)) f = kf_run (map (@kf_of _ n m l) cs) (fst (kf_step (kf_of c) f)).
Proof. by []. Qed.

(** Without process noise it is the KalmanFilter on the same history. *)
Theorem C27_noiseless_is_kf : forall (F : realFieldType) (fsqrt fexp flog : F -> F) (n m l : nat)
    (chol : 'M[F]_n -> option 'M[F]_n) dt dQ dR (cs : list (lin_call (exactO fsqrt fexp flog) n m l))
    (f : kf (exactO fsqrt fexp flog) n m l) (s s' : ck_st (exactO fsqrt fexp flog) n m),
  (0 < n)%N -> fsqrt n%:R ^+ 2 = n%:R -> sqrt_ok chol ->
  linked f -> kf_x f = c_x s -> kf_P f = c_P s -> sym (c_P s : 'M[F]_n) ->
  List.Forall (@sym_call F fsqrt fexp flog n m l) cs -> one_per_predict false cs = true -> noiseless cs ->
  ck_lin_run (o := exactO fsqrt fexp flog) chol (@mx_inv F m) dt dQ dR cs s = Some s' ->
  let f' := kf_run (map (@kf_of _ n m l) cs) f in
  kf_x f' = c_x s' /\ kf_P f' = c_P s'.
Proof.
move=> F fsqrt fexp flog n m l chol dt dQ dR cs f s s' n0 hs hc lk ex eP sP hcs wf nl run f'.
have [<- <-] := C27_is_kf_with_delayed_noise n0 hs hc lk ex eP sP hcs wf run; rewrite {}/f'.
set EO := exactO fsqrt fexp flog in f s s' cs lk ex eP sP hcs wf nl run *.
suff G : forall f g : kf EO n m l, linked f -> linked g -> kf_x f = kf_x g -> kf_P f = kf_P g ->
    kf_x (kf_run (map (@kf_of _ n m l) cs) f) = kf_x (kf_run (map (@kf_of _ n m l) (delay (mzeros n n : M EO n n) cs)) g) /\
    kf_P (kf_run (map (@kf_of _ n m l) cs) f) = kf_P (kf_run (map (@kf_of _ n m l) (delay (mzeros n n : M EO n n) cs)) g) by apply: G.
have idle (g : kf EO n m l) : linked g -> let g1 := fst (kf_step (kf_of (@LPredict EO n m l (meye n) (mzeros n n) None None)) g) in
    [/\ linked g1, kf_x g = kf_x g1 & kf_P g = kf_P g1].
  move=> [hB ha hi]; have := est_predict (meye n : M EO n n) (mzeros n n : M EO n n) None None hB; cbv zeta.
  set g1 := kf_predict _ _ _ _ g; move=> [/est_xP [a1 a2] [hB1 [ha1 hi1]]]; rewrite -[fst (kf_step _ g)]/g1; clearbody g1.
  split; [by split; [|rewrite ha1|move=> A; rewrite hi1]|by rewrite a1 /apply_control; exact/esym/mul1mx|].
  by rewrite a2 ha /= scale1r trmx1 mul1mx mulmx1 addr0.
elim: cs {f s lk ex eP sP hcs wf run} nl => [|c cs IH] nl f g lf lg ex eP.
  rewrite [delay _ _]/= [map _ (_ :: _)]/= kf_run_cons.
  by have [_ e1 e2] := idle g lg; rewrite ex eP e1 e2.
have one (g1 : kf EO n m l) : linked g1 -> kf_x f = kf_x g1 -> kf_P f = kf_P g1 -> noiseless cs ->
   let r := kf_run (map (@kf_of _ n m l) (delay (mzeros n n : M EO n n) cs)) (fst (kf_step (kf_of c) g1)) in
    kf_x (kf_run (map (@kf_of _ n m l) (c :: cs)) f) = kf_x r /\ kf_P (kf_run (map (@kf_of _ n m l) (c :: cs)) f) = kf_P r.
  by move=> l1 x1 P1 nl1 r; rewrite [map _ (_ :: _)]/= kf_run_cons; have [k1 k2 k3 k4] := kf_cong c lf l1 x1 P1; apply: IH.
case: c nl one => [Fm Q B u [-> nl]|[z|] R H nl] one; cbn [delay].
- have [lg1 x1 P1] := idle g lg.
  have E := run_cons (@LPredict EO n m l (meye n) (mzeros n n) None None) (@LPredict EO n m l Fm (mzeros n n) B u :: delay (mzeros n n) cs) g.
  rewrite E; rewrite [in X in _ = kf_x X]run_cons [in X in _ = kf_P X]run_cons.
  exact: (one _ lg1 (etrans ex x1) (etrans eP P1) nl).
- rewrite [in X in _ = kf_x X]run_cons [in X in _ = kf_P X]run_cons; exact: (one _ lg ex eP nl).
- rewrite [in X in _ = kf_x X]run_cons [in X in _ = kf_P X]run_cons; exact: (one _ lg ex eP nl).
Qed.
Print Assumptions C27_noiseless_is_kf.

(** ** Any fx and hx, any residual, any factorisation routine: the covariance stays positive semidefinite
    if the noise matrices are and there is at most one measurement per prediction. *)
Definition ck_psd_call (F : realFieldType) (fsqrt fexp flog : F -> F) (n m : nat) (c : ck_cfg (exactO fsqrt fexp flog) n m * ck_call (exactO fsqrt fexp flog) m) : Prop :=
  psd (cc_Q (fst c) : 'M[F]_n) /\ (forall A : 'M[F]_m, cc_inv (fst c) A = mx_inv A) /\
  match snd c with KPredict _ => True | KUpdate _ R => psd (sm_or (cc_R (fst c)) R : 'M[F]_m) end.
Theorem C27_psd : forall (F : realFieldType) (fsqrt fexp flog : F -> F) (n m : nat)
    (cs : list (ck_cfg (exactO fsqrt fexp flog) n m * ck_call (exactO fsqrt fexp flog) m)) (s s' : ck_st (exactO fsqrt fexp flog) n m),
  (0 < n)%N -> psd (c_P s : 'M[F]_n) -> List.Forall (@ck_psd_call F fsqrt fexp flog n m) cs -> ck_one_per_predict false cs = true ->
  ck_run cs s = Some s' -> psd (c_P s' : 'M[F]_n).
Proof.
move=> F fsqrt fexp flog n m cs s s' n0 pP hcs.
set EO := exactO fsqrt fexp flog in cs s s' pP hcs *.
pose w := equal_weights F (n + n).
have w0 i : 0 <= w 0 i by rewrite mxE invr_ge0 ler0n.
suff G : forall p, (p = true -> exists2 Q : 'M[F]_n, psd Q & c_P s = wcov w (c_sigmas_f s) (c_x s : 'cV[F]_n)^T + Q) ->
    ck_one_per_predict p cs = true -> ck_run cs s = Some s' -> psd (c_P s' : 'M[F]_n) by apply: G.
elim: hcs s pP => [|[cf a] cs' [pQ [hi hc]] _ IH] s pP p hp wf; first by move=> [<-].
cbn [ck_run]; case E: (ck_step cf a s) => [s1 [e|]] // run; cbn [fst snd] in pQ, hi, hc.
case: a hc wf E => [dt|[z|] R] hc wf E.
- move: E; unfold ck_step; rewrite /ck_predict; case e: (spherical_radial_sigmas _ _ _) => [sig|] //.
  set sf := map_rows _ _ _; have := @transformE F fsqrt fexp flog _ _ sf (cc_Q cf) (k0 n0).
  case: (ckf_transform _ _) => [x P] [xE PE] [s1E].
  have PE' : c_P s1 = wcov w (c_sigmas_f s1) (c_x s1 : 'cV[F]_n)^T + cc_Q cf by rewrite -s1E; cbn [c_P c_x c_sigmas_f]; rewrite xE trmxK.
  apply: (IH s1 _ true) => //; last by exists (cc_Q cf).
  by rewrite PE'; apply: psdD => //; exact: wcov_psd.
- move: wf => /andP[/hp [Q pQ' PE] wf]; move: E; unfold ck_step; rewrite /ck_update /ck_measure.
  set sh := map_rows _ _ _; set Rm := sm_or _ _; have := @transformE F fsqrt fexp flog _ _ sh Rm (k0 n0).
  case: (ckf_transform _ _) => [zp S] [zE SE]; rewrite hi /mx_inv crossE.
  case uS: (_ \in unitmx) => // -[s1E].
  apply: (IH s1 _ false) => //; rewrite -s1E; cbn [c_P].
  rewrite zE trmxK PE.
  rewrite SE in uS *.
  have := @moments_psd F (n + n) n m w (c_sigmas_f s) (c_x s : 'cV[F]_n)^T sh (wmean w sh) Rm w0 hc (wcov_psd _ _ w0) uS.
  cbv zeta; set K := _ *m invmx _ => pm.
  have -> : forall (A B C : 'M[F]_n), A + B - C = A - C + B by move=> A B C; rewrite addrAC.
  exact: psdD.
- move: E => [e1]; apply: (IH s1 _ p) => //; rewrite -e1 //.
Qed.
Print Assumptions C27_psd.

(** z given as the docstring says, as a one-dimensional array of dim_z entries: x becomes a dim_x x dim_z
    array whose column j is the update for a measurement all of whose entries are z[j]. *)
Theorem C27_flat_measurement : forall (F : realFieldType) (fsqrt fexp flog : F -> F) (n m : nat) (z : 'rV[F]_m) R
    (c : ck_cfg (exactO fsqrt fexp flog) n m) (s s' : ck_st (exactO fsqrt fexp flog) n m) (X : 'M[F]_(n, m)) (j : 'I_m),
  (forall a b : 'cV[F]_m, cc_residual_z c a b = a - b) ->
  ck_update_1d (o := exactO fsqrt fexp flog) z R c s = Ok X ->
  ck_update (o := exactO fsqrt fexp flog) (Some (const_mx (z 0 j) : 'cV[F]_m)) R c s = (s', None) ->
  col j X = c_x s'.
Proof.
move=> F fsqrt fexp flog n m z R c s s' X j hr; rewrite /ck_update_1d /ck_update.
case: (ck_measure R c s) => [[[sh zp] S] [[SI K]|]] // h; have {h} <- := Ok_inj h; move=> [<-]; cbn [c_x].
rewrite hr; apply/colP => i; rewrite !mxE /= !mx_getE; congr (_ + _); last first.
  rewrite !mxE; apply: eq_bigr => t _; rewrite !mxE; congr (_ * (_ - _)); first exact: (mx_getE z 0 j).
  exact: (mx_getE (zp : 'cV[F]_m) t 0).
exact: (mx_getE (c_x s : 'cV[F]_n) i 0).
Qed.
Print Assumptions C27_flat_measurement.

(** Everything above applies, for instance, over any real closed field with Cholesky's factorisation. *)
Example C27_instance (F : rcfType) (n : nat) (x : 'cV[F]_n.+1) (P : 'M[F]_n.+1) : psd P ->
  exists sig, spherical_radial_sigmas (o := exactO Num.sqrt id id) (@some_sqrt F n.+1) x P = Ok sig /\
  Num.sqrt n.+1%:R ^+ 2 = n.+1%:R :> F /\ sqrt_ok (@some_sqrt F n.+1).
Proof.
move=> hP; rewrite /spherical_radial_sigmas some_sqrt_psd //; eexists; split; first by [].
split; first by rewrite sqr_sqrtr // ler0n.
exact: some_sqrt_ok.
Qed.
