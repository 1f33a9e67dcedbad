(** * HInfinityFilter in exact arithmetic (C50): the game-theoretic covariance, and when it is a Kalman filter. *)
From mathcomp Require Import all_ssreflect all_algebra.
From Verif Require Import Ops Exact Spec ZmodTac LinAlg Model_KF Proof_KF_exact Spec_UKF_run Prop_CKF Model_HInf Prop_HInf.
Set Implicit Arguments.
Unset Strict Implicit.
Unset Printing Implicit Defensive.
Import Order.TTheory GRing.Theory Num.Theory.
Local Open Scope ring_scope.

Section E.
Variable F : realFieldType.
Variables (fsqrt fexp flog : F -> F).
Notation EO := (exactO fsqrt fexp flog).
Variables n m : nat.
Implicit Types (P Q W Fm : 'M[F]_n) (H : 'M[F]_(m, n)) (R : 'M[F]_m).

(** The matrix the code inverts. *)
Definition game (g : F) P Q H R := 1%:M - g *: (Q *m P) + H^T *m invmx R *m H *m P.

Lemma game0_inv P Q H R : R \in unitmx -> Smx P H R \in unitmx ->
  game 0 P Q H R *m (1%:M - H^T *m invmx (Smx P H R) *m H *m P) = 1%:M.
Proof.
move=> uR uS; rewrite /game scale0r subr0 mulmxDl mul1mx mulmxBr mulmx1.
suff -> : H^T *m invmx R *m H *m P *m (H^T *m invmx (Smx P H R) *m H *m P) =
  H^T *m invmx R *m H *m P - H^T *m invmx (Smx P H R) *m H *m P by zmod.
have e : H *m P *m H^T = Smx P H R - R by rewrite /Smx mulmxA addrK.
transitivity (H^T *m invmx R *m (H *m P *m H^T) *m invmx (Smx P H R) *m H *m P); first by rewrite !mulmxA.
by rewrite e !mulmxBr !mulmxBl ?mulmxA mulmxK // mulmxKV.
Qed.
Lemma game0 P Q H R : R \in unitmx -> Smx P H R \in unitmx -> P^T = P -> R^T = R ->
  [/\ game 0 P Q H R \in unitmx, P *m invmx (game 0 P Q H R) = Jmx P H R (Kmx P H R) &
      P *m invmx (game 0 P Q H R) *m (H^T *m invmx R) = Kmx P H R].
Proof.
move=> uR uS sP sR; have e := game0_inv Q uR uS; have [u1 u2] := mulmx1_unit e.
have e1 : invmx (game 0 P Q H R) = 1%:M - H^T *m invmx (Smx P H R) *m H *m P.
  by rewrite -[RHS](mulKmx u1) e mulmx1.
have e2 : P *m invmx (game 0 P Q H R) = P - Kmx P H R *m H *m P by rewrite e1 mulmxBr mulmx1 /Kmx !mulmxA.
split=> //; first by rewrite e2 Jmx_short // mulmxBl mul1mx.
rewrite e2 mulmxBl; have e3 : H *m P *m H^T = Smx P H R - R by rewrite /Smx mulmxA addrK.
transitivity (P *m H^T *m invmx R - Kmx P H R *m (H *m P *m H^T) *m invmx R); first by rewrite !mulmxA.
by rewrite e3 mulmxBr KmxS // [X in _ - X]mulmxBl mulmxK //; zmod.
Qed.

(** One update, written with mathcomp matrices. *)
Lemma updateE (c : hi_cfg EO n m) (z : 'cV[F]_m) (s : hi EO n m) (R : 'M[F]_m) :
  h_inv c = @mx_inv F n -> (h_V_inv s : 'M[F]_m) = invmx R ->
  let P : 'M[F]_n := h_P s in
  let H : 'M[F]_(m, n) := h_H c in
  let Fm : 'M[F]_n := h_F c in
  let G := game (h_gamma c) P (h_Q c) H R in
  let PL := P *m invmx G in
  let T := Fm *m PL *m Fm^T + h_W c in
  let y := z - H *m (h_x s : 'cV[F]_n) in
  let r := hi_update c (Some (z : M EO m 1)) s in
  if G \in unitmx then
    [/\ snd r = None, (h_P (fst r) : 'M[F]_n) = 2%:R^-1 *: (T + T^T) &
        (h_x (fst r) : 'cV[F]_n) = (h_x s : 'cV[F]_n) + Fm *m PL *m (H^T *m invmx R) *m y]
  else r = (s, Some LinAlgError).
Proof.
move=> hi hV P H Fm G PL T y r; rewrite /r /hi_update hi.
set A : M EO n n := (_ - _ + _)%np; have -> : A = G by rewrite /A hV.
by rewrite /mx_inv; case: (G \in unitmx) => //; rewrite hV.
Qed.

Lemma half_sym (T : 'M[F]_n) : T^T = T -> 2%:R^-1 *: (T + T^T) = T.
Proof. by move=> ->; rewrite -mulr2n -scaler_nat scalerA mulVf ?scale1r // pnatr_eq0. Qed.

Lemma le_inv (A B : 'M[F]_n) : pd A -> psd B -> mle (invmx (A + B)) (invmx A).
Proof.
move=> pA pB; have uA := pd_unit pA; have pC := pdD pA pB; have uC := pd_unit pC.
have sC : (invmx (A + B))^T = invmx (A + B) by rewrite sym_inv // pd_sym.
rewrite /mle; have -> : invmx A - invmx (A + B) = invmx (A + B) *m (B + B *m invmx A *m B^T) *m (invmx (A + B))^T.
  rewrite sC (psd_sym pB).
  have -> : B + B *m invmx A *m B = (A + B) *m invmx A *m (A + B) - (A + B).
    rewrite !mulmxDl !mulmxDr mulmxV // mul1mx mulmxKV // mul1mx; zmod.
  by rewrite mulmxBr mulmxBl !mulmxA mulVmx // !mul1mx mulmxK.
apply: psd_congr; apply: psdD => //; apply: psd_congr; apply: pd_psd; exact: pd_inv.
Qed.
End E.

(** ** The recursion.  When P is invertible and symmetric the new covariance is F M^-1 F^T + W with
    M = P^-1 - gamma Q + H^T V^-1 H, and the symmetrisation changes nothing; when M is singular the update raises. *)
Theorem C50_information : forall (F : realFieldType) (fsqrt fexp flog : F -> F) (n m : nat)
  (c : hi_cfg (exactO fsqrt fexp flog) n m) (z : 'cV[F]_m) (s : hi (exactO fsqrt fexp flog) n m) (R : 'M[F]_m),
  h_inv c = @mx_inv F n -> (h_V_inv s : 'M[F]_m) = invmx R -> R^T = R ->
  let P : 'M[F]_n := h_P s in
  P \in unitmx -> P^T = P -> (h_Q c : 'M[F]_n)^T = h_Q c -> (h_W c : 'M[F]_n)^T = h_W c ->
  let H : 'M[F]_(m, n) := h_H c in
  let Fm : 'M[F]_n := h_F c in
  let I := invmx P - (h_gamma c : F) *: (h_Q c : 'M[F]_n) + H^T *m invmx R *m H in
  let r := hi_update c (Some (z : M (exactO fsqrt fexp flog) m 1)) s in
  (I \in unitmx -> [/\ snd r = None, (h_P (fst r) : 'M[F]_n) = Fm *m invmx I *m Fm^T + h_W c &
    (h_x (fst r) : 'cV[F]_n) = (h_x s : 'cV[F]_n) + Fm *m (invmx I *m H^T *m invmx R) *m (z - H *m (h_x s : 'cV[F]_n))]) /\
  (I \notin unitmx -> r = (s, Some LinAlgError)).
Proof.
move=> F f1 f2 f3 n m c z s R hi hV sR P uP sP sQ sW H Fm I r.
have := updateE z hi hV; cbv zeta; rewrite -/P -/H -/Fm.
have eG : game (h_gamma c) P (h_Q c) H R = I *m P.
  by rewrite /game /I !mulmxDl mulNmx -scalemxAl mulVmx.
rewrite eG unitmx_mul uP andbT => hu; split=> uI; last by rewrite (negbTE uI) in hu.
rewrite uI in hu; case: hu => h1 h2 h3.
have e : P *m invmx (I *m P) = invmx I by rewrite invmxM // mulmxA mulmxV // mul1mx.
have sI : I^T = I.
  by rewrite /I !linearD /= linearN /= linearZ /= sQ sym_inv // !trmxM trmxK sym_inv // mulmxA.
split=> //; last by rewrite h3 e !mulmxA.
by rewrite h2 e half_sym // trmxD sW sym_congr // sym_inv.
Qed.
Print Assumptions C50_information.

(** ** gamma = 0.  With a positive semidefinite P and a positive definite V the update never raises; P becomes the Kalman
    filter's predicted covariance F P+ F^T + W, and x moves by F times the Kalman gain. *)
Theorem C50_gamma_zero : forall (F : realFieldType) (fsqrt fexp flog : F -> F) (n m : nat)
  (c : hi_cfg (exactO fsqrt fexp flog) n m) (z : 'cV[F]_m) (s : hi (exactO fsqrt fexp flog) n m) (R : 'M[F]_m),
  h_inv c = @mx_inv F n -> (h_V_inv s : 'M[F]_m) = invmx R -> pd R -> psd (h_P s : 'M[F]_n) ->
  (h_W c : 'M[F]_n)^T = h_W c -> (h_gamma c : F) = 0 ->
  let P : 'M[F]_n := h_P s in
  let H : 'M[F]_(m, n) := h_H c in
  let Fm : 'M[F]_n := h_F c in
  let r := hi_update c (Some (z : M (exactO fsqrt fexp flog) m 1)) s in
  [/\ snd r = None, (h_P (fst r) : 'M[F]_n) = Fm *m Jmx P H R (Kmx P H R) *m Fm^T + h_W c &
      (h_x (fst r) : 'cV[F]_n) = (h_x s : 'cV[F]_n) + Fm *m Kmx P H R *m (z - H *m (h_x s : 'cV[F]_n))].
Proof.
move=> F f1 f2 f3 n m c z s R hi hV pR pP sW g0 P H Fm r.
have uR := pd_unit pR; have uS : Smx P H R \in unitmx by apply: pd_unit; apply: pd_Smx.
have := updateE z hi hV; cbv zeta; rewrite -/P -/H -/Fm g0.
have [-> e1 e2] := game0 (h_Q c) uR uS (psd_sym pP) (pd_sym pR).
rewrite e1 -/r => -[h1 h2 h3]; split=> //.
- by rewrite h2 half_sym // trmxD sW sym_congr //; apply: Jmx_sym; [exact: psd_sym pP|exact: pd_sym pR].
- by rewrite h3; congr (_ + _ *m _); rewrite -mulmxA -e1 e2.
Qed.
Print Assumptions C50_gamma_zero.

(** ** A positive gamma is conservative: with a positive semidefinite Q and M still positive definite, the covariance is at
    least that of gamma = 0. *)
Theorem C50_gamma_inflates : forall (F : realFieldType) (fsqrt fexp flog : F -> F) (n m : nat)
  (c c0 : hi_cfg (exactO fsqrt fexp flog) n m) (z : 'cV[F]_m) (s : hi (exactO fsqrt fexp flog) n m) (R : 'M[F]_m),
  h_inv c = @mx_inv F n -> (h_V_inv s : 'M[F]_m) = invmx R -> pd R -> pd (h_P s : 'M[F]_n) ->
  psd (h_Q c : 'M[F]_n) -> (h_W c : 'M[F]_n)^T = h_W c -> 0 <= (h_gamma c : F) ->
  let H : 'M[F]_(m, n) := h_H c in
  pd (invmx (h_P s : 'M[F]_n) - (h_gamma c : F) *: (h_Q c : 'M[F]_n) + H^T *m invmx R *m H) ->
  c0 = mkHC (o := exactO fsqrt fexp flog) (0 : F) (h_F c) (h_H c) (h_Q c) (h_W c) (h_inv c) ->
  mle (h_P (fst (hi_update c0 (Some (z : M (exactO fsqrt fexp flog) m 1)) s)) : 'M[F]_n)
      (h_P (fst (hi_update c (Some (z : M (exactO fsqrt fexp flog) m 1)) s)) : 'M[F]_n).
Proof.
move=> F f1 f2 f3 n m c c0 z s R hi hV pR pP pQ sW g0 H pI e0.
set c1 := mkHC _ _ _ _ _ _ in e0.
have uP := pd_unit pP; have sP := pd_sym pP; have sR := pd_sym pR.
have [h1 _] := C50_information z hi hV sR uP sP (psd_sym pQ) sW.
have [_ -> _] := h1 (pd_unit pI).
have {e0} -> : c0 = c1 by [].
have [h2 _] := @C50_information F f1 f2 f3 n m c1 z s R hi hV sR uP sP (psd_sym pQ) sW.
have eI : invmx (h_P s : 'M[F]_n) - 0 *: (h_Q c : 'M[F]_n) + H^T *m invmx R *m H =
  invmx (h_P s : 'M[F]_n) - (h_gamma c : F) *: (h_Q c : 'M[F]_n) + H^T *m invmx R *m H + (h_gamma c : F) *: (h_Q c : 'M[F]_n).
  rewrite scale0r; zmod.
have pB : psd ((h_gamma c : F) *: (h_Q c : 'M[F]_n)) by apply: psdZ.
have [|_ -> _] := h2; first by rewrite eI; apply: pd_unit; apply: pdD.
rewrite /mle opprD addrACA subrr addr0 -mulmxBl -mulmxBr; apply: psd_congr.
by rewrite [X in invmx _ - invmx X]eI; exact: (le_inv pI pB).
Qed.
Print Assumptions C50_gamma_inflates.

(** ** Being a Kalman filter.  With gamma = 0 and F = I, predicting and updating through any list of measurements gives the
    x and P of a KalmanFilter that updates and then predicts (F = I, Q = W) through the same list. *)
Fixpoint kf_measure_predict (o : nops) (n m : nat) (R : M o m m) (H : M o m n) (W : M o n n) (zs : list (M o m 1)) (k : kf o n m 1) :
    kf o n m 1 :=
  match zs with
  | [::] => k
  | z :: zs => kf_measure_predict R H W zs
      (kf_predict None None (Some (meye n)) (Some (Mat W)) (fst (kf_update (Some z) (Some (Mat R)) (Some H) k)))
  end.

Theorem C50_is_kalman : forall (F : realFieldType) (fsqrt fexp flog : F -> F) (n m : nat)
  (c : hi_cfg (exactO fsqrt fexp flog) n m) (zs : list (M (exactO fsqrt fexp flog) m 1)) (R : 'M[F]_m)
  (s : hi (exactO fsqrt fexp flog) n m) (k : kf (exactO fsqrt fexp flog) n m 1),
  h_inv c = @mx_inv F n -> (h_gamma c : F) = 0 -> (h_F c : 'M[F]_n) = 1%:M -> psd (h_W c : 'M[F]_n) -> pd R ->
  (h_V_inv s : 'M[F]_m) = invmx R -> psd (h_P s : 'M[F]_n) ->
  kf_x k = h_x s -> kf_P k = h_P s -> kf_B k = None -> (kf_alpha_sq k : F) = 1 -> kf_inv k = @mx_inv F m ->
  let s' := hi_run (List.concat (List.map (epoch c false) (List.map Some zs))) s in
  let k' := kf_measure_predict (R : M (exactO fsqrt fexp flog) m m) (h_H c) (h_W c) zs k in
  kf_x k' = h_x s' /\ kf_P k' = h_P s'.
Proof.
move=> F f1 f2 f3 n m c zs R s k hi g0 hF pW pR; elim: zs s k => [|z zs IH] s k hV pP hx hP hB ha hk; first by [].
cbn [List.map List.concat epoch app hi_run hi_step fst kf_measure_predict].
set s1 := hi_predict c _ s.
have ex1 : (h_x s1 : 'cV[F]_n) = h_x s.
  by rewrite /s1 /hi_predict /hi_get_prediction; cbn [h_x]; rewrite hF; change (1%:M *m (h_x s : 'cV[F]_n) + 0 = h_x s); rewrite mul1mx addr0.
have eP1 : h_P s1 = h_P s by []. have eV1 : h_V_inv s1 = h_V_inv s by [].
clearbody s1.
have := @C50_gamma_zero F f1 f2 f3 n m c z s1 R hi; rewrite eV1 eP1 => /(_ hV pR pP (psd_sym pW) g0); cbv zeta.
have eV2 : h_V_inv (fst (hi_update c (Some z) s1)) = h_V_inv s1.
  by rewrite /hi_update; case: (h_inv c _).
move: (hi_update c (Some z) s1) eV2 => [s2 e] eV2 [_ hP2 hx2]; cbn [fst] in eV2, hP2, hx2 |- *.
have hu := @est_update _ n m 1 z (R : M (exactO f1 f2 f3) m m) (h_H c) k _ erefl.
move: (kf_update _ _ _ k) hu => [k1 e1]; cbv zeta; rewrite hk; cbn [fst snd].
have uS : Smx (h_P s) (h_H c) R \in unitmx by apply: pd_unit; exact: pd_Smx.
have -> : madd (mdot (h_H c) (mdot (kf_P k) (mtr (h_H c)))) (R : M (exactO f1 f2 f3) m m) = Smx (h_P s) (h_H c) R :> M (exactO f1 f2 f3) m m by rewrite hP.
rewrite /mx_inv uS => -[[_ /est_xP [x1 P1]] [B1 [a1 i1]]].
have := @est_predict _ n m 1 (meye n) (h_W c) None None k1; cbv zeta; rewrite B1 => /(_ hB).
move: (kf_predict _ _ _ _ k1) => k2 [/est_xP [x2 P2] [B2 [a2 i2]]].
have psd2 : psd (h_P s2 : 'M[F]_n).
  by rewrite hP2; apply: psdD => //; apply: psd_congr; apply: psd_Jmx => //; exact: pd_psd.
apply: IH => //.
- by rewrite eV2 eV1.
- rewrite x2 /apply_control x1 hx2 hF ex1 hx hP mul1mx.
  exact: mul1mx.
- rewrite P2 a1 P1 hP2 hF ha hP josephE.
  change (1 *: (1%:M *m Jmx (h_P s) (h_H c) R (Kmx (h_P s) (h_H c) R) *m 1%:M^T) + h_W c = 1%:M *m Jmx (h_P s) (h_H c) R (Kmx (h_P s) (h_H c) R) *m 1%:M^T + h_W c :> 'M[F]_n).
  by rewrite scale1r.
- by rewrite a2 a1.
- by rewrite i2 i1.
Qed.
Print Assumptions C50_is_kalman.

(** The hypotheses of the theorems above are met, in any dimension, by identity matrices: with gamma = 1/2, with gamma = 0. *)
Example C50_hypotheses_met (F : realFieldType) (f1 f2 f3 : F -> F) (n : nat) (g : F) : 0 <= g -> g <= 2%:R^-1 ->
  let c := mkHC (o := exactO f1 f2 f3) (n := n) (m := n) g (1%:M : 'M[F]_n) (1%:M : 'M[F]_n) (1%:M : 'M[F]_n) (1%:M : 'M[F]_n) (@mx_inv F n) in
  let s := mkHI (o := exactO f1 f2 f3) (n := n) (m := n) (0 : 'cV[F]_n) (1%:M : 'M[F]_n) (1%:M : 'M[F]_n) (1%:M : 'M[F]_n) (0 : F) (0 : 'cV[F]_n) (0 : 'cV[F]_n) in
  let R : 'M[F]_n := 1%:M in
  [/\ (h_V_inv s : 'M[F]_n) = invmx R, pd R, pd (h_P s : 'M[F]_n), psd (h_Q c : 'M[F]_n) &
      pd (invmx (h_P s : 'M[F]_n) - (h_gamma c : F) *: (h_Q c : 'M[F]_n) + (h_H c : 'M[F]_n)^T *m invmx R *m (h_H c : 'M[F]_n))].
Proof.
move=> g0 g1 c s R; split; rewrite /R /=; try exact: pd1; try exact: psd1; first by rewrite invmx1.
rewrite invmx1 trmx1 !mulmx1 -[X in X - _]scale1r -scalerBl -[X in _ + X]scale1r -scalerDl.
apply: pdZ; last exact: pd1.
have h : 2%:R^-1 < 1 :> F by rewrite invf_lt1 ?ltr0n // ltr1n.
by apply: ltr_paddl; rewrite ?ltr01 // subr_ge0; apply: le_trans g1 (ltW h).
Qed.
