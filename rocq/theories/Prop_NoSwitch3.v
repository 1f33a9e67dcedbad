(** * C84: an IMMEstimator of KalmanFilters that never switches is Bayes' rule on the whole record. *)
From mathcomp Require Import all_ssreflect all_algebra.
From Verif Require Import Ops Exact Spec ZmodTac LinAlg Model_KF Spec_KF Spec_KF_exact Spec_Stat Spec_Joint
  Proof_KF Proof_KF_exact Model_MM Spec_MM Prop_MM Prop_MMAE Prop_Joint Prop_ModelPost Prop_NoSwitch.
From Verif Require RealField.
Set Implicit Arguments.
Unset Strict Implicit.
Unset Printing Implicit Defensive.
Import Order.TTheory GRing.Theory Num.Theory.
Local Open Scope ring_scope.

(** After any sequence of predicts and updates that raises nothing, mu is the posterior distribution of the models given the
    whole record of measurements, and each filter's x and P are the conditional mean and covariance of the state
    given the record, under its model (J j is the joint distribution of state and record under model j; see Spec_Joint). *)
Theorem C84_posterior_of_models : forall (n m l N : nat) (d : kf RE n m l) (fs : list (kf RE n m l)) (p : 'rV[Rf]_N)
    (fmin : Rf) (cs : list (imm_call RE m l)),
  0 < fmin -> (forall j, 0 < p 0 j) -> \sum_j p 0 j = 1 -> size fs = N -> (forall j : 'I_N, good (nth d fs j)) ->
  let ks := List.map (@same_call RE n m l) cs in
  List.Forall (@psd_obs Rf _ _ _ n m l unit) (List.map (bank_obs None) ks) -> all (@measured Rf _ _ _ n m l) ks ->
  let D := @kf_filt RE n m l (@real_lpdf m) fmin in
  no_exception D (1%:M : 'M[Rf]_N) cs (imm_init D (1%:M : 'M[Rf]_N) fs p) ->
  let s := imm_run D (1%:M : 'M[Rf]_N) cs (imm_init D (1%:M : 'M[Rf]_N) fs p) in
  let J (j : 'I_N) := joint_run (nth d fs j) (List.map (bank_obs None) ks) (joint_start unit (nth d fs j)) in
  let L j : Rf := Reals.Rtrigo_def.exp (real_lpdf (j_z (J j) tt) (j_mz (J j)) (j_V (J j))) in
  let mu : 'rV[Rf]_N := i_mu s in
  [/\ forall j, mu 0 j = p 0 j * L j / \sum_k p 0 k * L k, prob mu &
      forall j : 'I_N, let f' := nth d (i_filters s) j in
        [/\ j_V (J j) \in unitmx,
            kf_x f' = j_mx (J j) + j_C (J j) *m invmx (j_V (J j)) *m (j_z (J j) tt - j_mz (J j)) &
            kf_P f' = j_Px (J j) - j_C (J j) *m invmx (j_V (J j)) *m (j_C (J j))^T]].
Proof.
move=> n m l N d fs p fmin cs hf p0 p1 sN hg ks hos hm D ok s J L mu.
have e0 (x : Rf) : 0 <= (Reals.Rtrigo_def.exp x : Rf) by apply/RealField.R_leP/Reals.RIneq.Rlt_le/Reals.Exp_prop.exp_pos.
have [own pos] := @C84_kalman Rf Reals.R_sqrt.sqrt Reals.Rtrigo_def.exp Reals.Rpower.ln n m l (@real_lpdf m) fmin e0 hf.
have := C84_no_switching d (fs := fs) None cs own pos p0 p1 sN; rewrite -/ks -/D -/s.
case run: (mmae_run _ _ _) => [a|]; last by move=> h; have := etrans (esym (h : no_exception _ _ _ _ = _)) ok.
move=> [_ fE mE _]; have hp : prob p by split=> // j; exact: ltW.
have [h1 h2 h3 _] := C81_posterior_of_models hf hp sN hg hos hm run.
by rewrite /mu mE fE; split.
Qed.
Print Assumptions C84_posterior_of_models.

(** The two filters of C81_applies in an IMMEstimator, with the same calls. *)
Definition ex_ics : list (imm_call RE 1 0) :=
  [:: @IUpdate RE 1 0 (Some (1%:M : 'M[Rf]_1)); @IPredict RE 1 0 None; @IUpdate RE 1 0 (Some (3%:R%:M : 'M[Rf]_1))].
Example C84_applies : let fs := [:: ex_real; ex_f2] in let D := @kf_filt RE 1 1 0 (@real_lpdf 1) (1 : Rf) in
  [/\ (forall j, 0 < ex_p 0 j) /\ \sum_j ex_p 0 j = 1, List.map (@same_call RE 1 1 0) ex_ics = ex_cs,
      forall j : 'I_2, good (nth ex_real fs j),
      all (@measured Rf _ _ _ 1 1 0) (List.map (@same_call RE 1 1 0) ex_ics) &
      List.Forall (@psd_obs Rf _ _ _ 1 1 0 unit) (List.map (bank_obs None) (List.map (@same_call RE 1 1 0) ex_ics)) /\
      no_exception D (1%:M : 'M[Rf]_2) ex_ics (imm_init D (1%:M : 'M[Rf]_2) fs ex_p)].
Proof.
move=> fs D; have cE : List.map (@same_call RE 1 1 0) ex_ics = ex_cs by reflexivity.
have [[q0 q1] sN hg hm [hos [a run] _]] := C81_applies; rewrite cE.
have p0 j : 0 < ex_p 0 j by rewrite mxE invr_gt0 ltr0n.
split=> //; split=> //.
have e0 (x : Rf) : 0 <= (Reals.Rtrigo_def.exp x : Rf) by apply/RealField.R_leP/Reals.RIneq.Rlt_le/Reals.Exp_prop.exp_pos.
have [own pos] := @C84_kalman Rf Reals.R_sqrt.sqrt Reals.Rtrigo_def.exp Reals.Rpower.ln 1 1 0 (@real_lpdf 1) (1 : Rf) e0 ltr01.
have := C84_no_switching ex_real (fs := fs) None ex_ics own pos p0 q1 sN; rewrite cE -/D run.
by case.
Qed.
