(** * InformationFilter: C20.  Also the exact-arithmetic parts of C22 and C23. *)
From mathcomp Require Import all_ssreflect all_algebra.
From Verif Require Import Ops Exact Spec ZmodTac LinAlg Model_KF Model_EKF Model_Info Spec_Lin Spec_KF_exact Proof_KF Proof_KF_exact Spec_RTS Proof_RTS_exact.
Set Implicit Arguments.
Unset Strict Implicit.
Unset Printing Implicit Defensive.
Import Order.TTheory GRing.Theory Num.Theory.
Local Open Scope ring_scope.

Section Info.
Variables (F : realFieldType) (fsqrt fexp flog : F -> F).
Notation EO := (exactO fsqrt fexp flog).
Variables n m l : nat.
Notation kf := (kf EO n m l).
Notation ist := (if_st EO n m).

(** Driving an InformationFilter through the same linear history: the user assigns F
    (whose setter stores the inverse), Q, B before a prediction; H before an update,
    and gives the inverse of R.  [lp], [fmin], [ll], the S, K etc. are arbitrary. *)
Definition if_of (lp : 'cV[F]_m -> 'M[F]_n -> res F) (ll : bool) (fmin : F) (d : if_cfg EO n m l)
    (c : lin_call EO n m l) : if_cfg EO n m l * if_call EO m l :=
  match c with
  | LPredict A Q B u => (@mkIC EO n m l Q B (Some A) (@mx_inv F n A) (ic_H d) (ic_Rinv d) (@mx_inv F n) ll lp fmin, IPredict u)
  | LUpdate z R H => (@mkIC EO n m l (ic_Q d) (ic_B d) (ic_F d) (ic_Finv d) H (ic_Rinv d) (@mx_inv F n) ll lp fmin,
                      IUpdate z (Some (@Mat EO m (invmx (R : 'M[F]_m)))))
  end.

Definition good_lin (c : lin_call EO n m l) : Prop :=
  match c with
  | LPredict A Q B u => (A : 'M[F]_n) \in unitmx /\ psd (Q : 'M[F]_n)
  | LUpdate z R H => pd (R : 'M[F]_m)
  end.

Definition if_rel (k : kf) (s : ist) : Prop :=
  [/\ i_x s = kf_x k, i_Pinv s = invmx (kf_P k : 'M[F]_n), pd (kf_P k : 'M[F]_n) & i_noinfo s = false].

Lemma kf_predict_fields (o : nops) a b c u (k : Model_KF.kf o a b c) A Q B : kf_B k = None ->
  let k' := kf_predict u B (Some A) (Some (Mat Q)) k in
  kf_x k' = apply_control A (kf_x k) B u /\
  kf_P k' = (mscale (kf_alpha_sq k) ((A @ kf_P k) @ A^T) + Q)%np /\
  kf_B k' = None /\ kf_alpha_sq k' = kf_alpha_sq k /\ kf_inv k' = kf_inv k.
Proof. by destruct k => /= ->; case: B. Qed.

Lemma if_predict_rel lp ll fm d A Q B u (k : kf) (s : ist) :
  if_rel k s -> kf_B k = None -> kf_alpha_sq k = 1 -> (A : 'M[F]_n) \in unitmx -> psd (Q : 'M[F]_n) ->
  let k' := @kf_predict EO n m l u B (Some A) (Some (@Mat EO n Q)) k in
  let c := if_of lp ll fm d (@LPredict EO n m l A Q B u) in
  [/\ if_rel k' (fst (if_step c s)), snd (if_step c s) = None, i_x_prior (fst (if_step c s)) = kf_x_prior k' &
      i_Pinv_prior (fst (if_step c s)) = invmx (kf_P_prior k' : 'M[F]_n)].
Proof.
move=> [ex eP pP ei] hB ha uA pQ k' c.
have [k1 [k2 _]] := @kf_predict_fields EO n m l u k A Q B hB.
have pp : pd ((A : 'M[F]_n) *m kf_P k *m (A : 'M[F]_n)^T + Q) by apply: pdD => //; apply: pd_congr.
have e1 : (invmx A)^T *m invmx (kf_P k : 'M[F]_n) *m invmx A = invmx (A *m kf_P k *m (A : 'M[F]_n)^T).
  rewrite !invmxM ?unitmx_mul ?unitmx_tr ?uA ?pd_unit // trmx_inv mulmxA //.
have uAP : A *m kf_P k *m (A : 'M[F]_n)^T \in unitmx by rewrite !unitmx_mul unitmx_tr uA pd_unit.
rewrite /c /if_of /if_step /= /if_predict /= /mx_inv uA /=.
rewrite eP e1 unitmx_inv uAP ei /= invmxK.
have uPp := pd_unit pp; rewrite uPp /=.
have kx : kf_x k' = add_control ((A : M EO n n) @ kf_x k)%np B u.
  by rewrite k1 /apply_control /add_control; case: (B) => [b|]; case: u {k' c k1 k2} => [v|] //=; rewrite addr0.
have kP : kf_P k' = (A *m kf_P k *m (A : 'M[F]_n)^T + Q) by rewrite k2 ha /= scale1r.
split=> //.
- by split=> //; rewrite ?kP // kx ex.
- by rewrite ex -kx.
- by rewrite -kP.
Qed.

Lemma if_update_rel lp ll fm d z (R : 'M[F]_m) (H : 'M[F]_(m,n)) (k : kf) (s : ist) :
  if_rel k s -> inv_exact k -> pd R ->
  let k' := fst (@kf_update EO n m l z (Some (@Mat EO m R)) (Some H) k) in
  let c := if_of lp ll fm d (@LUpdate EO n m l z R H) in
  if_rel k' (fst (if_step c s)) /\ kf_B k' = kf_B k /\ kf_alpha_sq k' = kf_alpha_sq k /\ inv_exact k'.
Proof.
move=> [ex eP pP ei] hi pR k' c.
have [_ [_ [hB [_ [_ [_ hi']]]]]] := @step_config EO n m l (CUpdate z (Some (@Mat EO m R)) (Some H)) k.
have ha : kf_alpha_sq k' = kf_alpha_sq k.
  by rewrite /k' /kf_update; case: (z) => [z'|] //; case: (kf_inv _ _).
split; last first.
  by split; [exact: hB|split; [exact: ha|move=> A; rewrite -hi; exact: (congr1 (fun f => f A) hi')]].
have pS := pd_Smx H (pd_psd pP) pR.
case: z @k' @c {hB hi' ha} => [z|] k' c; last by split.
have [_ _ _ _ [_ k1 k2]] : [/\ snd (@kf_update EO n m l (Some z) (Some (@Mat EO m R)) (Some H) k) = None,
      kf_y k' = z - H *m kf_x k, kf_S k' = Smx (kf_P k) H R, kf_SI k' = invmx (Smx (kf_P k) H R) &
      [/\ kf_K k' = Kmx (kf_P k) H R, kf_x k' = kf_x k + Kmx (kf_P k) H R *m (z - H *m kf_x k) &
      kf_P k' = Jmx (kf_P k) H R (Kmx (kf_P k) H R)]].
  by apply: (@update_exact F fsqrt fexp flog n m l k z (Some (@Mat EO m R)) (Some H) hi); exact: pd_unit.
have sy : (kf_P k : 'M[F]_n)^T = kf_P k := pd_sym pP.
have eL : invmx (kf_P k : 'M[F]_n) + H^T *m invmx R *m H = Lmx (kf_P k) H R by [].
have uL : Lmx (kf_P k) H R \in unitmx by apply: unit_L; rewrite ?pd_unit ?pd_sym.
have iL : invmx (Lmx (kf_P k) H R) = kf_P k' by rewrite k2; apply: invL; rewrite ?pd_unit ?pd_sym.
have iP : Lmx (kf_P k) H R = invmx (kf_P k' : 'M[F]_n) by rewrite -iL invmxK.
have pP' : pd (kf_P k' : 'M[F]_n) by rewrite k2; exact: pd_Pup.
have eK : invmx (Lmx (kf_P k) H R) *m H^T *m invmx R = Kmx (kf_P k) H R.
  by rewrite iL k2; symmetry; apply: KJ; rewrite ?pd_unit ?pd_sym.
rewrite /c /if_of /if_step /= /if_update /= ei eP eL /mx_inv uL /= eK.
have fin (ll' lik' : F) xp Pp xo Po : if_rel k' (@mkIS EO n m (i_x s + Kmx (kf_P k) H R *m (z - H *m i_x s)) (Lmx (kf_P k) H R) (Some z)
   (Some (Kmx (kf_P k) H R)) (z - H *m i_x s) (Some (Lmx (kf_P k) H R)) false ll' lik' xp Pp xo Po).
  by split=> //; rewrite k1 ex.
by case: (if ll then _ else _) => [v|e]; apply: fin.
Qed.

Lemma if_run_rel lp ll fm d (cs : seq (lin_call EO n m l)) (k : kf) (s : ist) :
  if_rel k s -> kf_B k = None -> kf_alpha_sq k = 1 -> inv_exact k -> List.Forall good_lin cs ->
  if_rel (kf_run (map (@kf_of EO n m l) cs) k) (if_run (map (if_of lp ll fm d) cs) s).
Proof.
elim: cs k s => [|c cs IH] k s r hB ha hi g //=.
have [gc gcs] : good_lin c /\ List.Forall good_lin cs by inversion g.
rewrite /if_run /kf_run /= -/(kf_run _ _) -/(if_run _ _).
case: c gc {g} => [A Q B u|z R H] gc.
- have [r' _ _ _] := if_predict_rel lp ll fm d B u r hB ha gc.1 gc.2.
  have [_ [_ [h1 [h2 h3]]]] := @kf_predict_fields EO n m l u k A Q B hB.
  by apply: IH => // M; rewrite -hi; exact: (congr1 (fun f => f M) h3).
- have [r' [h1 [h2 h3]]] := if_update_rel lp ll fm d z H r hi gc.
  by apply: IH => //; [rewrite [LHS]h1|rewrite [LHS]h2].
Qed.
End Info.

(** ** C20.  Whatever the likelihood routine does (it may raise: the information filter then
    raises after the state was corrected), x is the KalmanFilter's and P_inv
    the inverse of its P after every history, and the P property
    returns the KalmanFilter's P. *)
Theorem C20_information_is_kalman : forall (F : realFieldType) (fsqrt fexp flog : F -> F) (n m l : nat)
    lp ll fm (d : if_cfg (exactO fsqrt fexp flog) n m l) (cs : seq (lin_call (exactO fsqrt fexp flog) n m l))
    (k : kf (exactO fsqrt fexp flog) n m l) (s : if_st (exactO fsqrt fexp flog) n m),
  if_rel k s -> kf_B k = None -> kf_alpha_sq k = (1 : F) -> inv_exact k -> List.Forall (@good_lin F fsqrt fexp flog n m l) cs ->
  let k' := kf_run (map (@kf_of _ n m l) cs) k in
  let s' := if_run (map (if_of lp ll fm d) cs) s in
  [/\ i_x s' = kf_x k', i_Pinv s' = invmx (kf_P k' : 'M[F]_n), pd (kf_P k' : 'M[F]_n) &
      forall c : if_cfg (exactO fsqrt fexp flog) n m l, ic_inv c = @mx_inv F n -> @if_P _ n m l c s' = Some (kf_P k')].
Proof.
move=> F f1 f2 f3 n m l lp ll fm d cs k s r hB ha hi g k' s'.
have [e1 e2 e3 _] := if_run_rel lp ll fm d r hB ha hi g.
split=> // c ec; rewrite /if_P ec /mx_inv e2 unitmx_inv pd_unit //.
by rewrite invmxK.
Qed.
Print Assumptions C20_information_is_kalman.

(** No information: from P_inv = 0, x = 0, the first update leaves the information
    vector H' R^-1 z; the next prediction, once H' R^-1 H is
    invertible, moves the weighted least-squares solution forward. *)
Theorem C20_no_information_start : forall (F : realFieldType) (fsqrt fexp flog : F -> F) (n m l : nat)
    (c : if_cfg (exactO fsqrt fexp flog) n.+1 m l) (s : if_st (exactO fsqrt fexp flog) n.+1 m) (A : 'M[F]_n.+1) (z : 'cV[F]_m) u,
  ic_inv c = @mx_inv F n.+1 -> ic_F c = Some (A : M (exactO fsqrt fexp flog) n.+1 n.+1) -> ic_Finv c = @mx_inv F n.+1 A -> A \in unitmx ->
  psd (ic_Q c : 'M[F]_n.+1) -> (ic_Q c : 'M[F]_n.+1) \in unitmx -> pd (ic_Rinv c : 'M[F]_m) ->
  i_Pinv s = (0 : 'M[F]_n.+1) -> i_x s = (0 : 'cV[F]_n.+1) ->
  let H : 'M[F]_(m, n.+1) := ic_H c in let Ri : 'M[F]_m := ic_Rinv c in
  let W := H^T *m Ri *m H in W \in unitmx ->
  let s1 := fst (if_predict None c s) in
  let s2 := fst (if_update (Some (z : M (exactO fsqrt fexp flog) m 1)) None c s1) in
  let r3 := if_predict u c s2 in
  let xls := invmx W *m (H^T *m Ri *m z) in
  [/\ forall v, qf Ri (z - H *m xls) <= qf Ri (z - H *m v),
      snd r3 = None, i_x (fst r3) = add_control (A *m xls : M (exactO fsqrt fexp flog) n.+1 1) (ic_B c) u &
      i_Pinv (fst r3) = invmx (A *m invmx W *m A^T + ic_Q c)].
Proof.
move=> F f1 f2 f3 n m l c s A z u ei eF eFi uA pQ uQ pR eP ex H Ri W uW s1 s2 r3 xls.
have u0 : (0 : 'M[F]_n.+1) \notin unitmx by rewrite unitmxE det0 unitr0.
have sR : Ri^T = Ri := pd_sym pR.
have pW : psd W by apply: psd_congrT; exact: pd_psd.
have fi : mx_inv A = Some (invmx A) by rewrite /mx_inv uA.
have uAi : invmx A \in unitmx by rewrite unitmx_inv.
have e1 : s1 = fst (if_predict None c s) by [].
have [s1x s1P s1n] : [/\ i_x s1 = 0, i_Pinv s1 = 0 & i_noinfo s1 = true].
  rewrite e1 /if_predict eF eFi fi ei eP ex /= !mulmx0 !mul0mx /mx_inv (negbTE u0) /=.
  by rewrite unitmx_tr uA add0r uQ /= !mulmx0.
have [s2x s2P s2n] : [/\ i_x s2 = H^T *m Ri *m z, i_Pinv s2 = W & i_noinfo s2 = true].
  by rewrite /s2 /if_update s1n s1x s1P /= mulmx0 !add0r.
have pdW : pd W := psd_unit_pd pW uW.
have e2 : (invmx A)^T *m W *m invmx A = invmx (A *m invmx W *m A^T).
  by rewrite !invmxM ?unitmx_mul ?unitmx_tr ?unitmx_inv ?uA ?uW // trmx_inv invmxK mulmxA.
have uI : A *m invmx W *m A^T \in unitmx by rewrite !unitmx_mul unitmx_tr unitmx_inv uA uW.
have uF : A *m invmx W *m A^T + ic_Q c \in unitmx.
  by apply: pd_unit; apply: pdD => //; apply: pd_congr => //; exact: pd_inv.
have r3E : r3 = if_predict u c s2 by [].
have [h1 h2 h3] : [/\ snd r3 = None, i_x (fst r3) = add_control (A *m xls : M (exactO f1 f2 f3) n.+1 1) (ic_B c) u &
      i_Pinv (fst r3) = invmx (A *m invmx W *m A^T + ic_Q c)].
  by rewrite r3E /if_predict eF eFi fi ei s2x s2P s2n /= e2 /mx_inv unitmx_inv uI uW invmxK uF.
split=> // v; have -> : z - H *m v = (z - H *m xls) - H *m (v - xls) by rewrite mulmxBr; zmod.
set a := z - H *m xls; set w := v - xls.
have orth : H^T *m Ri *m a = 0.
  by rewrite /a mulmxBr mulmxA -/W /xls mulKVmx // subrr.
have orthT : a^T *m Ri *m H = 0.
  by apply: trmx_inj; rewrite !trmxM trmxK sR trmx0 mulmxA.
clearbody a w.
have -> : qf Ri (a - H *m w) = qf Ri a + qf W w.
  rewrite /qf !trmxB !trmxM !(mulmxBl,mulmxBr) !mulmxA orthT.
  have -> : w^T *m H^T *m Ri *m a = 0 by rewrite -2!mulmxA [H^T *m _]mulmxA orth mulmx0.
  by rewrite mul0mx /W ?mulmxA !mxE; zmod.
by rewrite ler_addl; apply: (proj2 pW).
Qed.
Print Assumptions C20_no_information_start.

(** The hypotheses of [C20_information_is_kalman] hold of two newly constructed filters. *)
Example C20_hypotheses (F : realFieldType) (fsqrt fexp flog : F -> F) (n m l : nat) (fm : F) :
  let k := kf_init (o := exactO fsqrt fexp flog) n m l fm (@mx_inv F m) in
  [/\ if_rel k (@if_init (exactO fsqrt fexp flog) n m fm), kf_B k = None, kf_alpha_sq k = (1 : F) & inv_exact k].
Proof. by split=> //; split=> //=; rewrite ?invmx1 //; exact: pd1. Qed.
