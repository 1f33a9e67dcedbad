(** * EnsembleKalmanFilter (C28). *)
From Coq Require Import ZArith QArith.
From mathcomp Require Import all_ssreflect all_algebra.
From Verif Require Import Ops Exact Spec ZmodTac FieldTac LinAlg Model_Common Model_KF Model_UKF Model_EnKF Spec_Lin Spec_KF_exact Proof_KF_exact Spec_UKF Spec_UKF_run Spec_EnKF Prop_Kin Proof_UKF Prop_UKF Proof_UKF_lin Prop_UKF_run Prop_CKF Proof_Moments Proof_EnKF.
Set Implicit Arguments.
Unset Strict Implicit.
Unset Printing Implicit Defensive.
Import Order.TTheory GRing.Theory Num.Theory.
Local Close Scope Q_scope.
Local Close Scope Z_scope.
Local Open Scope ring_scope.

(** The members pushed through a function. *)
Definition image (F : realFieldType) N n m (f : 'rV[F]_n -> 'rV[F]_m) (X : 'M[F]_(N, n)) : 'M[F]_(N, m) :=
  \matrix_(i, j) f (matrix.row i X) 0 j.

(** ** predict, whatever fx and whatever the draws: every member is fx of it plus its draw; x is the ensemble's mean,
    P its sample covariance (N >= 2), which is positive semidefinite. *)
Theorem C28_predict : forall (F : realFieldType) (fsqrt fexp flog : F -> F) (n m N : nat) (e : 'M[F]_(N, n))
    (c : en_cfg (exactO fsqrt fexp flog) n m) (s : en_st (exactO fsqrt fexp flog) n m N),
  (1 < N)%N -> let s' := en_predict (o := exactO fsqrt fexp flog) e c s in
  let X : 'M[F]_(N, n) := n_sigmas s' in
  [/\ X = image (fun x => nc_fx c x (nc_dt c)) (n_sigmas s) + e, n_x s' = smean X, n_P s' = scov X, psd (n_P s' : 'M[F]_n) &
      n_x_prior s' = n_x s' /\ n_P_prior s' = n_P s'].
Proof.
move=> F fsqrt fexp flog n m N e c s N1 s' X; have N0 : (0 < N)%N by apply: ltnW.
have XE : X = image (fun x => nc_fx c x (nc_dt c)) (n_sigmas s) + e.
  by rewrite /X /s' /en_predict; cbn [n_sigmas]; rewrite map_rowsE.
have xE : n_x s' = smean X by rewrite /s' /en_predict; cbn [n_x]; rewrite row_meanE.
have PE : n_P s' = scov X by rewrite /s' /en_predict; cbn [n_P]; rewrite row_meanE cov_divE.
by split=> //; rewrite PE; exact: scov_psd.
Qed.
Print Assumptions C28_predict.

(** ** update, whatever hx and whatever the draws.  S, K and the shifted members are as specified from the sample
    moments; x is the mean of the new ensemble; P is reduced by K S K^T and stays positive semidefinite if it
    was the ensemble's covariance (as it is after predict).  The ensemble mean is moved by K (z + mean draw - mean h).
    None of it depends on the x held before (which is not the ensemble's mean until the first predict). *)
Theorem C28_update : forall (F : realFieldType) (fsqrt fexp flog : F -> F) (n m N : nat) (z : 'rV[F]_m) R (er : 'M[F]_(N, m))
    (c : en_cfg (exactO fsqrt fexp flog) n m) (s s' : en_st (exactO fsqrt fexp flog) n m N),
  (1 < N)%N -> (forall A : 'M[F]_m, nc_inv c A = mx_inv A) ->
  en_update (o := exactO fsqrt fexp flog) (Some z) R er c s = (s', None) ->
  let X : 'M[F]_(N, n) := n_sigmas s in let Z := image (nc_hx c) X in let Rm : 'M[F]_m := sm_or (nc_R c) R in
  let S := scov Z + Rm in let K := sxcov X Z *m invmx S in
  [/\ S \in unitmx, n_S s' = S, n_K s' = K,
      forall i : 'I_N, matrix.row i (n_sigmas s' : 'M[F]_(N, n)) = matrix.row i X + (z + matrix.row i er - nc_hx c (matrix.row i X) : 'rV[F]_m) *m K^T &
  [/\ n_x s' = smean (n_sigmas s' : 'M[F]_(N, n)), n_x s' = smean X + (z + smean er - smean Z) *m K^T,
      n_P s' = (n_P s : 'M[F]_n) - K *m S *m K^T, n_P s = scov X -> psd Rm -> psd (n_P s' : 'M[F]_n) &
      n_x_post s' = n_x s' /\ n_P_post s' = n_P s']].
Proof.
move=> F fsqrt fexp flog n m N z R er c s s' N1 hi; rewrite /en_update; have N0 : (0 < N)%N by apply: ltnW.
rewrite map_rowsE -/(image (nc_hx c) (n_sigmas s)) row_meanE !cov_centreE // hi -/(scov _).
set Z := image _ _; set Rm := sm_or _ _; set X : 'M[F]_(N, n) := n_sigmas s.
set S0 := (X in mx_inv X); have -> : S0 = scov Z + Rm :> 'M[F]_m by []. rewrite /mx_inv; set S := scov Z + Rm.
case uS: (S \in unitmx) => //; rewrite shift_get row_meanE => -[<-].
cbn [n_x n_P n_S n_K n_sigmas n_x_post n_P_post].
move KE : (sxcov X Z *m invmx S) => K; split=> //; last split=> //.
- by move=> i; rewrite linearD /= row_mul linearB /= linearD /= row_crow; congr (_ + (_ - _) *m _); apply/rowP => j; rewrite !mxE.
- by rewrite smeanD smeanM smeanB smeanD smean_crow.
- move=> PE pR; rewrite PE -KE; have := @moments_psd F N n m (sw F N) X (smean X) Z (smean Z) Rm (@sw_ge0 F N N0) pR.
  by rewrite /wcov -!sxcov_wx; apply=> //; exact: scov_psd.
Qed.
Print Assumptions C28_update.

(** The P that update reports is the sample covariance of the new ensemble if the draws have no sampling error:
    mean 0, covariance R, uncorrelated with the members and with their predicted measurements. *)
Theorem C28_reported_covariance : forall (F : realFieldType) (fsqrt fexp flog : F -> F) (n m N : nat) (z : 'rV[F]_m) R (er : 'M[F]_(N, m))
    (c : en_cfg (exactO fsqrt fexp flog) n m) (s s' : en_st (exactO fsqrt fexp flog) n m N),
  (1 < N)%N -> (forall A : 'M[F]_m, nc_inv c A = mx_inv A) -> n_P s = scov (n_sigmas s : 'M[F]_(N, n)) ->
  ideal_draws er (sm_or (nc_R c) R) -> sxcov (n_sigmas s : 'M[F]_(N, n)) er = 0 -> sxcov (image (nc_hx c) (n_sigmas s : 'M[F]_(N, n))) er = 0 ->
  en_update (o := exactO fsqrt fexp flog) (Some z) R er c s = (s', None) ->
  n_P s' = scov (n_sigmas s' : 'M[F]_(N, n)).
Proof.
move=> F fsqrt fexp flog n m N z R er c s s' N1 hi eP [i1 i2] h1 h2 E.
have N0 : (0 < N)%N by apply: ltnW.
have [uS _ _ rows [_ _ PE _ _]] := C28_update N1 hi E.
set X : 'M[F]_(N, n) := n_sigmas s in rows PE *; set Z := image _ X in rows PE uS *.
have -> : (n_sigmas s' : 'M[F]_(N, n)) = X + (crow N z + er - Z) *m (sxcov X Z *m invmx (scov Z + sm_or (nc_R c) R))^T.
  apply/row_matrixP => i; rewrite rows linearD /= row_mul linearB /= linearD /= row_crow.
  by congr (_ + (_ - _) *m _); apply/rowP => j; rewrite !mxE.
by rewrite PE eP (scov_shift N0 z h1 h2 i2 uS).
Qed.
Print Assumptions C28_reported_covariance.

Section Run.
Variable F : realFieldType.
Variables (fsqrt fexp flog : F -> F).
Notation EO := (exactO fsqrt fexp flog).
Variables n m l N : nat.
Variables (dt : F) (dQ : 'M[F]_n) (dR : 'M[F]_m).

(** A linear history; each call comes with the draws it receives. *)
Definition en_lin_call : Type := lin_call EO n m l * ('M[F]_(N, n) * 'M[F]_(N, m)).
Definition en_of (c : en_lin_call) : en_cfg EO n m * en_call EO n m N :=
  match c with
  | (LPredict Fm Q B u, (e, _)) => (@mkNC EO n m Q dR dt (fun x => mslice x 0 0 1 m) (lin_fx Fm B u) (@mx_inv F m), @NPredict EO n m N e)
  | (LUpdate z R H, (_, er)) => (@mkNC EO n m dQ R dt (lin_hx H) (fun x _ => x) (@mx_inv F m), @NUpdate EO n m N (option_map mtr z) None er)
  end.
Definition en_lin_step c (s : en_st EO n m N) := let (cf, a) := en_of c in en_step cf a s.
(** The draws have no sampling error relative to the ensemble they meet. *)
Definition ideal_call (c : en_lin_call) (s : en_st EO n m N) : Prop :=
  match c with
  | (LPredict _ Q _ _, (e, _)) => ideal_draws e Q /\ sxcov (n_sigmas s : 'M[F]_(N, n)) e = 0
  | (LUpdate None _ _, _) => True
  | (LUpdate (Some _) R _, (_, er)) => ideal_draws er R /\ sxcov (n_sigmas s : 'M[F]_(N, n)) er = 0
  end.
Fixpoint en_lin_run (cs : list en_lin_call) (s : en_st EO n m N) : option (en_st EO n m N) :=
  match cs with
  | nil => Some s
  | c :: cs => match en_lin_step c s with (s, None) => en_lin_run cs s | (_, Some _) => None end
  end.
Fixpoint ideal_run (cs : list en_lin_call) (s : en_st EO n m N) : Prop :=
  match cs with
  | nil => True
  | c :: cs => ideal_call c s /\ ideal_run cs (fst (en_lin_step c s))
  end.
End Run.

(** ** C28.  Through any linear history with draws free of sampling error, started on an ensemble whose
    sample mean and covariance are x and P: the filter's x and P are the KalmanFilter's, and they remain the
    ensemble's own sample mean and covariance. *)
Theorem C28_ideal_draws_is_kf : forall (F : realFieldType) (fsqrt fexp flog : F -> F) (n m l N : nat) dt dQ dR
    (cs : list (@en_lin_call F fsqrt fexp flog n m l N)) (f : kf (exactO fsqrt fexp flog) n m l) (s s' : en_st (exactO fsqrt fexp flog) n m N),
  (1 < N)%N -> linked f -> kf_x f = (n_x s : 'rV[F]_n)^T -> kf_P f = n_P s ->
  n_x s = smean (n_sigmas s : 'M[F]_(N, n)) -> n_P s = scov (n_sigmas s : 'M[F]_(N, n)) ->
  List.Forall (fun c => @sym_call F fsqrt fexp flog n m l (fst c)) cs ->
  ideal_run dt dQ dR cs s -> en_lin_run dt dQ dR cs s = Some s' ->
  let f' := kf_run (map (fun c => kf_of (fst c)) cs) f in
  [/\ kf_x f' = (n_x s' : 'rV[F]_n)^T, kf_P f' = n_P s', n_x s' = smean (n_sigmas s' : 'M[F]_(N, n)) & n_P s' = scov (n_sigmas s' : 'M[F]_(N, n))].
Proof.
move=> F fsqrt fexp flog n m l N dt dQ dR cs f s s' N1; have N0 : (0 < N)%N by apply: ltnW.
set EO := exactO fsqrt fexp flog in cs f s s' *.
elim: cs f s => [|[c [e er]] cs IH] f s lk ex eP hx hP hs; first by move=> _ [<-].
have {hs} [hs1 hs2] : sym_call c /\ List.Forall (fun c => @sym_call F fsqrt fexp flog n m l (fst c)) cs by inversion hs.
move=> [id ids]; cbn [en_lin_run]; case E: (en_lin_step _ _ _ _ s) => [s1 [ex'|]] // run; rewrite E in ids.
rewrite [kf_run _ f]/(kf_run (map (fun c => kf_of (fst c)) cs) (fst (kf_step (kf_of c) f))).
have sP : sym (kf_P f : 'M[F]_n) by rewrite eP hP /sym sxcovT.
case: c hs1 id E {IH}(IH) => [Fm Q B u|[z|] R H] sR id E IH.
- case: id => [[i1 i2] i3]; move: E => [s1E].
  have := @C28_predict F fsqrt fexp flog n m N e (@mkNC EO n m Q dR dt (fun x => mslice x 0 0 1 m) (lin_fx Fm B u) (@mx_inv F m)) s N1.
  cbv zeta; rewrite s1E => -[XE xE PE _ _]; cbn [nc_fx nc_dt] in XE.
  have imE : image (fun x : 'rV[F]_n => lin_fx (o := EO) Fm B u x dt) (n_sigmas s) = (n_sigmas s : 'M[F]_(N, n)) *m (Fm : 'M[F]_n)^T + crow N (bu B u).
    apply/row_matrixP => i; rewrite linearD /= row_crow row_mul.
    by rewrite -(@lin_fxE F fsqrt fexp flog n l Fm B u _ dt); apply/rowP => j; rewrite !mxE.
  rewrite imE in XE.
  case: (lk) => hB ha hi; have := est_predict (Fm : M EO n n) Q B u hB; cbv zeta.
  set f1 := kf_predict _ _ _ _ f; rewrite -[fst (kf_step _ f)]/f1; clearbody f1; move=> [/est_xP [a1 a2] [a3 [a4 a5]]].
  apply: (IH f1 s1) => //.
  + by split; [|rewrite a4|move=> A; rewrite a5].
  + rewrite a1 xE XE !smeanD smean_crow // i1 addr0 smeanM -hx ex /apply_control /bu.
    by clear; case: B => [B|]; case: u => [u|] //=; rewrite ?trmxD ?trmxM ?trmxK ?trmx0 ?addr0.
  + rewrite a2 ha PE XE /scov; set X := n_sigmas s.
    have z1 : sxcov e (X : 'M[F]_(N, n)) = 0 by rewrite -sxcovT i3 trmx0.
    rewrite !sxcovDl !sxcovDr !sxcovMl !sxcovMr !sxcov_crowl // !sxcov_crowr // i3 z1 -/(scov e) i2 eP hP /= scale1r.
    by rewrite mulmx0 mul0mx !addr0 !add0r mulmxA.
- case: id => [[i1 i2] i3]; have E' := E; move: E; unfold en_lin_step; cbn [en_of option_map]; unfold en_step => E.
  set cf := mkNC _ _ _ _ _ _ in E; have hI : forall A : 'M[F]_m, nc_inv cf A = mx_inv A by [].
  have [uS SE KE _ [xE x2E PE _ _]] := C28_update N1 hI E.
  cbn [nc_hx nc_R sm_or] in uS, SE, KE, xE, x2E, PE.
  have imE : image (lin_hx (o := EO) H) (n_sigmas s) = (n_sigmas s : 'M[F]_(N, n)) *m (H : 'M[F]_(m, n))^T.
    by apply/row_matrixP => i; rewrite row_mul; apply/rowP => j; rewrite !mxE.
  rewrite imE in uS SE KE x2E PE.
  have SmxE : scov ((n_sigmas s : 'M[F]_(N, n)) *m (H : 'M[F]_(m, n))^T) + R = Smx (kf_P f : 'M[F]_n) H R.
    by rewrite /scov sxcovMl sxcovMr eP hP /Smx.
  have KmxE : sxcov (n_sigmas s : 'M[F]_(N, n)) ((n_sigmas s : 'M[F]_(N, n)) *m (H : 'M[F]_(m, n))^T) *m invmx (Smx (kf_P f : 'M[F]_n) H R) = Kmx (kf_P f : 'M[F]_n) H R.
    by rewrite sxcovMr -/(scov _) -hP -eP.
  rewrite SmxE in uS SE KE x2E PE; rewrite KmxE in KE x2E PE.
  have P1 : n_P s1 = scov (n_sigmas s1 : 'M[F]_(N, n)).
    have := C28_reported_covariance N1 hI hP _ _ _ E; cbn [nc_hx nc_R sm_or]; apply=> //.
    by rewrite imE sxcovMl i3 mulmx0.
  set g := kf_step _ f.
  have gE : kf_update (Some (z : M EO m 1)) (Some (@Mat EO m R)) (Some (H : M EO m n)) f = g := erefl.
  have := @est_update EO n m l z R H f g gE; lazy zeta => -[E2 [hB' [ha' hi']]].
  clearbody g; case: (lk) => hB ha hi; move: E2.
  have -> : madd (mdot H (mdot (kf_P f) (mtr H))) R = Smx (kf_P f : 'M[F]_n) H R by [].
  rewrite [kf_inv f _]hi /mx_inv uS => -[g1 /est_xP [x2 P2]].
  apply: (IH (fst g) s1) => //.
  + by split; [rewrite hB'|rewrite ha'|move=> A; rewrite hi'].
  + rewrite x2 x2E i1 smeanM -hx addr0 ex.
    have -> (x : 'rV[F]_n) K : (x + (z^T - x *m (H : 'M[F]_(m, n))^T) *m K^T)^T = x^T + K *m ((z : 'cV[F]_m) - (H : 'M[F]_(m, n)) *m x^T) :> 'cV[F]_n.
      by rewrite linearD /= trmx_mul trmxK linearB /= trmxK trmx_mul trmxK.
    by [].
  + by rewrite P2 PE josephE (Jmx_minus sP sR uS) eP.
- have [E1 [E2 [hB' [ha' hi']]]] := est_skip (Some (@Mat EO m R)) (Some H) f.
  set g := kf_step _ f; have gE : kf_update None (Some (@Mat EO m R)) (Some (H : M EO m n)) f = g := erefl.
  rewrite gE in E1 E2 hB' ha' hi'; clearbody g; case: (est_xP E2) => x2 P2.
  case: (lk) => hB ha hi; move: E => [e1]; have [xs [Ps sf]] : n_x s1 = n_x s /\ n_P s1 = n_P s /\ n_sigmas s1 = n_sigmas s by rewrite -e1.
  apply: (IH (fst g) s1) => //; rewrite ?xs ?Ps ?sf //.
  + by split; [rewrite hB'|rewrite ha'|move=> A; rewrite hi'].
  + by rewrite x2.
  + by rewrite P2.
Qed.
Print Assumptions C28_ideal_draws_is_kf.

(** update raises LinAlgError exactly when S is singular, and then has changed nothing but S. *)
Theorem C28_update_raises : forall (F : realFieldType) (fsqrt fexp flog : F -> F) (n m N : nat) (z : 'rV[F]_m) R (er : 'M[F]_(N, m))
    (c : en_cfg (exactO fsqrt fexp flog) n m) (s : en_st (exactO fsqrt fexp flog) n m N),
  (forall A : 'M[F]_m, nc_inv c A = mx_inv A) ->
  let S := scov (image (nc_hx c) (n_sigmas s : 'M[F]_(N, n))) + (sm_or (nc_R c) R : 'M[F]_m) in
  let r := en_update (o := exactO fsqrt fexp flog) (Some z) R er c s in
  (S \in unitmx -> snd r = None) /\
  (S \notin unitmx -> snd r = Some LinAlgError /\
     let s' := fst r in
     [/\ n_x s' = n_x s, n_P s' = n_P s, n_sigmas s' = n_sigmas s, n_S s' = S & (n_x_post s', n_P_post s') = (n_x_post s, n_P_post s)]).
Proof.
move=> F fsqrt fexp flog n m N z R er c s hi S; rewrite /en_update.
rewrite map_rowsE -/(image (nc_hx c) (n_sigmas s)) row_meanE; set Pxz := mdivs (outer_product_sum (sub_row (n_sigmas s) _) _) _.
rewrite !cov_divE hi -/(scov _); set S0 := (X in mx_inv X); have -> : S0 = S :> 'M[F]_m by []. rewrite /mx_inv.
by case: (S \in unitmx); split.
Qed.
Print Assumptions C28_update_raises.

(** A concrete run: four members, a prediction and a measurement with draws free of sampling error. *)
Section Instance.
Let EO := exactO (@id rat) id id.
Definition col4 (a b c d : rat) : 'M[rat]_(4, 1) := \matrix_(i, j) nth 0 [:: a; b; c; d] i.
Definition ex_st : en_st EO 1 1 4 :=
  let P : 'M[rat]_1 := (4%:R / 3%:R)%:M in
  @mkNS EO 1 1 4 0 P (col4 1 (-1) 1 (-1)) 0 None 0 0 0 P 0 P.
Definition ex_calls : list (@en_lin_call _ id id id 1 1 1 4) :=
  [:: (@LPredict EO 1 1 1 1%:M (4%:R / 3%:R)%:M None None, (col4 1 1 (-1) (-1), 0));
      (@LUpdate EO 1 1 1 (Some (1%:M : 'M[rat]_1)) (4%:R / 3%:R)%:M 1%:M, (0, col4 1 (-1) (-1) 1))].
Lemma smean4 a b c d : smean (col4 a b c d) = ((a + b + c + d) / 4%:R)%:M.
Proof. by apply/matrixP => i j; rewrite !ord1 /smean mxE summxE !big_ord_recl big_ord0 !mxE /= !addr0 !addrA mulr1n mulrC. Qed.
Lemma sxcov4 a b c d a' b' c' d' : a + b + c + d = 0 -> a' + b' + c' + d' = 0 ->
  sxcov (col4 a b c d) (col4 a' b' c' d') = ((a * a' + b * b' + c * c' + d * d') / 3%:R)%:M.
Proof.
move=> h1 h2; apply/matrixP => i j; rewrite !ord1 /sxcov !smean4 h1 h2 !mul0r mxE summxE !big_ord_recl big_ord0.
by rewrite !mxE !big_ord_recl !big_ord0 !mxE /= !mulr1n !subr0 !addrA mulrC.
Qed.
Example C28_instance :
  [/\ n_x ex_st = smean (n_sigmas ex_st : 'M[rat]_(4, 1)), n_P ex_st = scov (n_sigmas ex_st : 'M[rat]_(4, 1)),
      ideal_run 0 0 0 ex_calls ex_st,
      List.Forall (fun c => @sym_call _ (@id rat) id id 1 1 1 (fst c)) ex_calls &
      exists s', en_lin_run 0 0 0 ex_calls ex_st = Some s'].
Proof.
have x0 : n_x ex_st = smean (n_sigmas ex_st : 'M[rat]_(4, 1)) by rewrite smean4 -[_ / _]/(0 : rat) raddf0.
have P0 : n_P ex_st = scov (n_sigmas ex_st : 'M[rat]_(4, 1)) by rewrite /scov sxcov4.
set c1 := (@LPredict EO 1 1 1 1%:M (4%:R / 3%:R)%:M None None, (col4 1 1 (-1) (-1), 0) : 'M[rat]_(4,1) * 'M[rat]_(4,1)) : @en_lin_call _ id id id 1 1 1 4.
set c2 := (@LUpdate EO 1 1 1 (Some (1%:M : 'M[rat]_1)) (4%:R / 3%:R)%:M 1%:M, (0 : 'M[rat]_(4,1), col4 1 (-1) (-1) 1)) : @en_lin_call _ id id id 1 1 1 4.
set s1 := en_predict (o := EO) (col4 1 1 (-1) (-1)) (fst (en_of 0 0 0 c1)) ex_st.
have s1E : en_lin_step 0 0 0 c1 ex_st = (s1, None) by [].
have := C28_predict (col4 1 1 (-1) (-1)) (fst (en_of 0 0 0 c1)) ex_st (isT : (1 < 4)%N); cbv zeta; rewrite -/s1 => -[XE _ _ _ _].
have {}XE : n_sigmas s1 = col4 2%:R 0 0 (- 2%:R).
  rewrite XE; apply/matrixP => i j; rewrite mxE [image _ _ i j]mxE. cbn [en_of fst c1 nc_fx nc_dt]. rewrite (@lin_fxE _ id id id) trmx1 mulmx1 addr0 !mxE.
  by case: i => -[|[|[|[|k]]]] hk.
clearbody s1.
have r1 : snd (en_lin_step 0 0 0 c2 s1) = None.
  have := @C28_update_raises _ id id id 1 1 4 (1%:M : 'M[rat]_1)^T None (col4 1 (-1) (-1) 1) (fst (en_of 0 0 0 c2)) s1 (fun A => erefl).
  move=> [h _]; apply: h; cbn [en_of fst c2 nc_hx nc_R sm_or].
  have -> : image (lin_hx (o := EO) (1%:M : 'M[rat]_1)) (n_sigmas s1) = n_sigmas s1.
    by apply/matrixP => i j; rewrite mxE /lin_hx -[mdot _ _]/(matrix.row i (n_sigmas s1 : 'M[rat]_(4,1)) *m (1%:M)^T) trmx1 mulmx1 mxE !ord1.
  by rewrite XE /scov sxcov4 // -raddfD unitmxE det_scalar1.
split=> //.
- rewrite /ex_calls; cbn [ideal_run]; rewrite s1E; cbn [fst]; split; [|split=> //].
  + by split; [split; [rewrite smean4 -[_ / _]/(0 : rat) raddf0|rewrite /scov sxcov4]|rewrite sxcov4 // -[_ / _]/(0 : rat) raddf0].
  + by rewrite /c2 /ideal_call XE; split; [split; [rewrite smean4 -[_ / _]/(0 : rat) raddf0|rewrite /scov sxcov4]|rewrite sxcov4 // -[_ / _]/(0 : rat) raddf0].
- apply: List.Forall_cons; first by rewrite /= /sym tr_scalar_mx.
  by apply: List.Forall_cons; [rewrite /= /sym tr_scalar_mx|].
- rewrite /ex_calls; cbn [en_lin_run]; rewrite s1E.
  case: (en_lin_step _ _ _ c2 s1) r1 => s2 e2 /= ->; by exists s2.
Qed.
End Instance.
