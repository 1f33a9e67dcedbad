(** * C78: the filter conditions on the whole measurement record, and its likelihoods
      multiply to the density of that record. *)
From mathcomp Require Import all_ssreflect all_algebra.
From Verif Require Import Ops Exact Spec ZmodTac LinAlg Model_KF Spec_KF Spec_KF_exact Spec_Stat Spec_Joint
  Proof_KF Proof_KF_exact Proof_KF_order Prop_KF_exact Prop_Stat.
From Verif Require Prop_Lik RealField.
Set Implicit Arguments.
Unset Strict Implicit.
Unset Printing Implicit Defensive.
Import Order.TTheory GRing.Theory Num.Theory.
Local Open Scope ring_scope.

Opaque kf_update kf_update_correlated.

(** ** Block matrices *)
Section Block.
Variable F : realFieldType.
Variables a b : nat.
Variables (V : 'M[F]_a) (B : 'M[F]_(a, b)) (D : 'M[F]_b).
Hypothesis uV : V \in unitmx.
Let S := D - B^T *m invmx V *m B.
Let W := block_mx V B B^T D.

Lemma block_det : \det W = \det V * \det S.
Proof.
have -> : W = block_mx 1%:M 0 (B^T *m invmx V) 1%:M *m block_mx V B 0 S.
  rewrite mulmx_block ?mul1mx ?mul0mx ?mulmx0 ?addr0 mulmxKV //; congr block_mx.
  by rewrite /S; zmod.
by rewrite det_mulmx det_lblock det_ublock !det1 !mul1r.
Qed.

Hypothesis uS : S \in unitmx.
Lemma block_unit : W \in unitmx.
Proof. by move: uV uS; rewrite !unitmxE block_det unitrM => -> ->. Qed.

Lemma block_row p (c1 : 'M[F]_(p, a)) (c2 : 'M[F]_(p, b)) :
  let g := (c2 - c1 *m invmx V *m B) *m invmx S in
  row_mx c1 c2 *m invmx W = row_mx (c1 *m invmx V - g *m B^T *m invmx V) g.
Proof.
move=> g; apply: (canLR (mulmxK block_unit)).
rewrite /W mul_row_block; congr row_mx; first by rewrite mulmxBl !mulmxKV //; zmod.
have e : g *m S = c2 - c1 *m invmx V *m B by rewrite /g mulmxKV.
have -> : g *m D = g *m S + g *m (B^T *m invmx V *m B) by rewrite -mulmxDr /S subrK.
by rewrite e; mxring.
Qed.

Hypothesis sV : V^T = V.
Lemma block_qf (d : 'cV[F]_a) (e : 'cV[F]_b) :
  qf (invmx W) (col_mx d e) = qf (invmx V) d + qf (invmx S) (e - B^T *m invmx V *m d).
Proof.
have addE (X Y : 'M[F]_1) : X 0 0 + Y 0 0 = (X + Y) 0 0 by rewrite mxE.
rewrite /qf tr_col_mx block_row mul_row_col addE; congr (fun_of_matrix _ _ _).
have sVi := sym_inv sV.
rewrite [(e - _)^T]raddfB /= !trmx_mul trmxK sVi !mulmxA.
by rewrite mulmxBl mulmxBr !mulmxA; zmod.
Qed.
End Block.

(** The determinant of a positive definite matrix is positive. *)
Lemma det_pd (F : realFieldType) k (A : 'M[F]_k) : pd A -> 0 < \det A.
Proof.
elim: k A => [|k IH]; first by move=> A; rewrite det_mx00 ltr01.
change (forall A : 'M[F]_(1 + k), pd A -> 0 < \det A) => A [sA hA].
have eA : A = block_mx (ulsubmx A) (ursubmx A) (ursubmx A)^T (drsubmx A).
  by rewrite -{1}[A]submxK; congr block_mx; rewrite -{1}sA; apply/matrixP => i j; rewrite !mxE.
have u1 : pd (ulsubmx A).
  split; first by apply/matrixP => i j; rewrite !mxE -{2}sA mxE.
  move=> v nv; have := hA (col_mx v 0); rewrite col_mx_eq0 eqxx andbT => /(_ nv).
  by rewrite {1}eA /qf tr_col_mx mul_row_block !mul_row_col trmx0 !mul0mx !mulmx0 !addr0.
have uu := pd_unit u1.
move: u1 uu; set V := ulsubmx A; set B := ursubmx A; set D := drsubmx A => u1 uu.
rewrite eA block_det // mulr_gt0 //.
  have e0 : (1%:M : 'M[F]_1) != 0 by rewrite -scalemx1 scaler_eq0 oner_eq0 /= oner_eq0.
  have := proj2 u1 1%:M e0; rewrite /qf trmx1 mul1mx mulmx1.
  by rewrite [X in \det X](_ : V = (V 0 0)%:M) ?det_scalar1 //; apply/matrixP => i j; rewrite !ord1 !mxE.
apply: IH; split.
  rewrite /sym linearB /= !trmx_mul trmxK (sym_inv (proj1 u1)) mulmxA; congr (_ - _).
  by apply/matrixP => i j; rewrite !mxE -{2}sA mxE.
move=> v nv; have := hA (col_mx (- (invmx V *m B *m v)) v).
rewrite col_mx_eq0 (negbTE nv) andbF => /(_ isT).
rewrite {1}eA /qf tr_col_mx mul_row_block mul_row_col.
suff -> : (- (invmx V *m B *m v))^T *m V + v^T *m B^T = 0.
  rewrite mul0mx add0r raddfN /= !trmx_mul (sym_inv (proj1 u1)) -!mulmxA.
  by rewrite mulmxBl mulmxBr mulmxDl mulNmx !mulmxA [- _ *m v + _]addrC mulNmx.
by rewrite raddfN /= !trmx_mul (sym_inv (proj1 u1)) mulmxA mulNmx mulmxKV // addNr.
Qed.

Section Joint.
Variable F : realFieldType.
Variables (fsqrt fexp flog : F -> F).
Notation EO := (exactO fsqrt fexp flog).
Variables n m l : nat.
Notation kf := (kf EO n m l).
Notation kf_call := (kf_call EO n m l).
Variable T : Type.
Notation obs := (obs fsqrt fexp flog n m l T).
Notation joint := (joint F n T).

(** What holds of the filter [s] of outcome [t], started as [s0]. *)
Record tracks (s0 : kf) (t : T) (j : joint) (s : kf) : Prop := Tracks {
  tr_u : j_V j \in unitmx; tr_sV : (j_V j)^T = j_V j; tr_sP : (j_Px j)^T = j_Px j;
  tr_psd : psd (kf_P s : 'M[F]_n);
  tr_x : kf_x s = j_mx j + j_C j *m invmx (j_V j) *m (j_z j t - j_mz j);
  tr_P : kf_P s = j_Px j - j_C j *m invmx (j_V j) *m (j_C j)^T;
  tr_F : kf_F s = kf_F s0; tr_Q : kf_Q s = kf_Q s0; tr_B : kf_B s = kf_B s0;
  tr_H : kf_H s = kf_H s0; tr_R : kf_R s = kf_R s0; tr_a : kf_alpha_sq s = 1 :> F;
  tr_i : inv_exact s }.

Lemma psd_Q (s0 : kf) Q : psd (kf_Q s0 : 'M[F]_n) -> psd_arg Q -> psd (sm_or (o := EO) (kf_Q s0) Q : 'M[F]_n).
Proof. exact: psd_sm_or. Qed.
Lemma psd_R (s0 : kf) R : psd (kf_R s0 : 'M[F]_m) -> psd_arg R -> psd (Rm s0 R).
Proof. exact: psd_sm_or. Qed.

Lemma track_predict (s0 : kf) (t : T) (j : joint) (s : kf) u B A Q : psd (kf_Q s0 : 'M[F]_n) -> psd_arg Q -> tracks s0 t j s ->
  tracks s0 t (joint_step s0 (@OPredict F fsqrt fexp flog n m l T u B A Q) j) (fst (kf_step (@CPredict EO n m l u B A Q) s)).
Proof.
move=> hQ0 hQ [uV sV sP hP ex eP eF eQ eB eH eR ea hi].
have pQ := psd_Q hQ0 hQ; have sQ := psd_sym pQ.
have [c1 [c2 [c3 [c4 [c5 [c6 c7]]]]]] := @step_config EO n m l (@CPredict EO n m l u B A Q) s.
have eP' : kf_P (fst (kf_step (@CPredict EO n m l u B A Q) s)) =
    opt_or (kf_F s0 : 'M[F]_n) A *m kf_P s *m (opt_or (kf_F s0 : 'M[F]_n) A)^T + sm_or (o := EO) (kf_Q s0) Q.
  by rewrite (@step_predictE EO n m l) /= ea eF eQ scale1r.
have ex' : kf_x (fst (kf_step (@CPredict EO n m l u B A Q) s)) =
    opt_or (kf_F s0 : 'M[F]_n) A *m kf_x s + input s0 B u.
  rewrite (@step_predictE EO n m l) /= /apply_control /B_or /input eF eB.
  by case: B {c1 c2 c3 c4 c5 c6 c7 eP'} => [B|] //=; [|case: (kf_B s0) => [B|]]; case: u => [u|] /=; rewrite ?addr0.
have ea' : kf_alpha_sq (fst (kf_step (@CPredict EO n m l u B A Q) s)) = kf_alpha_sq s by rewrite (@step_predictE EO n m l).
move: (fst _) c1 c2 c3 c4 c5 c7 eP' ex' ea' => s' c1 c2 c3 c4 c5 c7 eP' ex' ea'.
set A0 := opt_or _ _ in eP' ex'.
split=> /=; rewrite -?/A0 //.
- by rewrite linearD /= sQ sym_congr.
- by rewrite eP'; apply: psdD => //; exact: psd_congr.
- by rewrite ex' ex; mxring.
- by rewrite eP' eP; mxring.
- by rewrite c1.
- by rewrite c2.
- by rewrite c3.
- by rewrite c4.
- by rewrite c5.
- by rewrite ea'.
- by move=> X; rewrite c7; exact: hi.
Qed.

Lemma track_missing (s0 : kf) (t : T) (j : joint) (s : kf) R H : tracks s0 t j s ->
  tracks s0 t j (fst (kf_step (@CUpdate EO n m l None R H) s)).
Proof.
Transparent kf_update.
by case=> *; split.
Opaque kf_update.
Qed.

(** One measurement. *)
Lemma track_measure (s0 : kf) (t : T) (j : joint) (s : kf) z R H : psd (kf_R s0 : 'M[F]_m) -> psd_arg R -> tracks s0 t j s ->
  let c := @CUpdate EO n m l (Some (z t)) R H in
  snd (kf_step c s) = None ->
  let s' := fst (kf_step c s) in
  let j' := joint_step s0 (@OMeasure F fsqrt fexp flog n m l T z R H) j in
  [/\ tracks s0 t j' s', pd (kf_S s' : 'M[F]_m), kf_SI s' = invmx (kf_S s'),
      \det (j_V j') = \det (j_V j) * \det (kf_S s') &
      qf (invmx (j_V j')) (j_z j' t - j_mz j') =
      qf (invmx (j_V j)) (j_z j t - j_mz j) + qf (invmx (kf_S s')) (kf_y s')].
Proof.
move=> hR0 hR tr c; have [uV sV sP hP ex eP eF eQ eB eH eR ea hi] := tr.
have eHm : Hm s H = Hm s0 H by rewrite /Hm eH.
have eRm : Rm s R = Rm s0 R by rewrite /Rm eR.
have [c1 [c2 [c3 [c4 [c5 [c6 c7]]]]]] := @step_config EO n m l c s.
have ea' : kf_alpha_sq (fst (kf_step c s)) = kf_alpha_sq s := update_alpha _ _ _ _.
move=> hok.
have uS : innov_cov s R H \in unitmx.
  apply/negPn/negP => nu.
  have e0 : kf_inv s (innov_cov s R H : M EO m m) = None by rewrite hi /mx_inv (negbTE nu).
  by move: hok; rewrite /c (@step_updateE EO n m l) (@update_fails EO n m l _ _ _ _ e0).
have pR := psd_R hR0 hR; have sR := psd_sym pR.
have [_ ey eS eSI [_ ex' eP']] := update_exact (z t) hi uS.
move: ey eS eSI ex' eP' c1 c2 c3 c4 c5 c7 ea'; rewrite -(@step_updateE EO n m l) -/c.
move: (fst (kf_step c s)) => s' ey eS eSI ex' eP' c1 c2 c3 c4 c5 c7 ea' {c6} /=.
move: uS ey eS eSI ex' eP'; rewrite /innov_cov eHm eRm.
move: (Hm s0 H) (Rm s0 R) pR sR {eHm eRm c hok} => H0 R0 pR sR.
set x := (kf_x s : 'cV[F]_n) in ex *; set P := (kf_P s : 'M[F]_n) in hP eP *.
rewrite -/(Smx P H0 R0) => uS ey eS eSI ex' eP'.
set V := j_V j in uV sV ex eP *; set C := j_C j in ex eP *; set Px := j_Px j in sP eP *.
pose B := C^T *m H0^T; pose D := H0 *m Px *m H0^T + R0.
have eB' : B^T = H0 *m C by rewrite trmx_mul !trmxK.
have eSch : D - B^T *m invmx V *m B = Smx P H0 R0.
  by rewrite eB' /B /D /Smx eP; mxring.
have uS' : D - B^T *m invmx V *m B \in unitmx by rewrite eSch.
have sD : D^T = D by rewrite linearD /= sR sym_congr.
have sPs := psd_sym hP.
have eg : (Px *m H0^T - C *m invmx V *m B) *m invmx (D - B^T *m invmx V *m B) = Kmx P H0 R0.
  by rewrite eSch /Kmx /B !mulmxA -mulmxBl -eP.
have eRow : row_mx C (Px *m H0^T) *m invmx (block_mx V B B^T D) =
    row_mx (C *m invmx V - Kmx P H0 R0 *m B^T *m invmx V) (Kmx P H0 R0).
  by rewrite block_row // eg.
have eVV : block_mx V (C^T *m H0^T) (H0 *m C) (H0 *m Px *m H0^T + R0) = block_mx V B B^T D by rewrite eB'.
rewrite eVV; split.
- split=> /=; rewrite -?/V -?/C -?/Px ?eVV //.
  + exact: block_unit.
  + by rewrite tr_block_mx trmxK sV sD.
  + by rewrite eP'; exact: psd_Jmx.
  + rewrite eRow opp_col_mx add_col_mx mul_row_col ex' -/x ex eB'; mxring.
  + rewrite eRow tr_row_mx mul_row_col eP' -/P /B; rewrite Jmx_short // !trmx_mul sP !trmxK.
    by rewrite mulmxBl mul1mx; move: (Kmx P H0 R0) => K; rewrite eP; mxring.
  + by rewrite c1.
  + by rewrite c2.
  + by rewrite c3.
  + by rewrite c4.
  + by rewrite c5.
  + by rewrite ea'.
  + by move=> X; rewrite c7; exact: hi.
- by rewrite eS; apply: psd_unit_pd => //; exact: psd_Smx.
- by rewrite eSI eS.
- by rewrite block_det // eSch eS.
- rewrite opp_col_mx add_col_mx block_qf // eSch eS ey; congr (_ + qf _ _).
  by rewrite eB' -/x ex; mxring.
Qed.

(** ** Whole histories *)
Section Run.
Variables (s0 : kf) (t : T).
Hypotheses (hQ0 : psd (kf_Q s0 : 'M[F]_n)) (hR0 : psd (kf_R s0 : 'M[F]_m)).
Variables (lpdf : 'cV[F]_m -> 'cV[F]_m -> 'M[F]_m -> F) (fmin log2pi : F).
Notation ld := (log_density flog log2pi).
Hypothesis lpdfE : forall x mu S, pd S -> lpdf x mu S = ld x mu S.
Hypothesis flogM : forall a b, 0 < a -> 0 < b -> flog (a * b) = flog a + flog b.
Hypotheses (fexpD : forall a b, fexp (a + b) = fexp a * fexp b) (fexp0 : forall a, fexp a != 0).
Hypothesis fsqrtK : forall a, 0 <= a -> fsqrt a ^+ 2 = a.
Notation ll := (fun s : kf => fst (@kf_log_likelihood EO n m l lpdf s) : F).
Notation lik := (fun s : kf => fst (@kf_likelihood EO n m l lpdf fmin s) : F).
Notation mahal := (fun s : kf => fst (@kf_mahalanobis EO n m l s) : F).
Notation jd j := (ld (j_z j t) (j_mz j) (j_V j)).
Notation jq j := (qf (invmx (j_V j)) (j_z j t - j_mz j)).

Lemma read_update z R H s : let s' := fst (kf_step (@CUpdate EO n m l z R H) s) in
  [/\ ll s' = lpdf (kf_y s') 0 (kf_S s'),
      lik s' = (if fexp (lpdf (kf_y s') 0 (kf_S s')) == 0 then fmin else fexp (lpdf (kf_y s') 0 (kf_S s'))) &
      mahal s' = fsqrt (((kf_y s' : 'cV[F]_m)^T *m (kf_SI s' : 'M[F]_m) *m (kf_y s' : 'cV[F]_m)) 0 0)].
Proof.
move=> s'.
have h := @Prop_Lik.measures_coherent EO n m l lpdf fmin (@CUpdate EO n m l z R H) s I.
have [e1 [e2 e3]] := @Prop_Lik.coherent_reads EO n m l lpdf fmin _ h.
split; [exact e1|exact e2|].
by etransitivity; [exact e3|]; rewrite /Prop_Lik.mahal_of; congr fsqrt; exact: (mx_getE _ ord0 ord0).
Qed.

Lemma joint_measure_reads z R H j s : psd_arg R -> tracks s0 t j s -> 0 < \det (j_V j) ->
  let c := @CUpdate EO n m l (Some (z t)) R H in
  snd (kf_step c s) = None ->
  let s' := fst (kf_step c s) in
  let j' := joint_step s0 (@OMeasure F fsqrt fexp flog n m l T z R H) j in
  [/\ tracks s0 t j' s', 0 < \det (j_V j'), jd j' = jd j + ll s', fexp (jd j') = fexp (jd j) * lik s' &
      jq j' = jq j + mahal s' ^+ 2].
Proof.
move=> hR tr hd c hok s' j'.
have [tr' pS eSI ed eq] := track_measure hR0 hR tr hok.
have [e1 e2 e3] := read_update (Some (z t)) R H s.
rewrite -/c -/s' in tr' pS eSI ed eq e1 e2 e3; rewrite -/j' in tr' ed eq.
have dS := det_pd pS.
have el : jd j' = jd j + ll s'.
  rewrite e1 lpdfE // /log_density eq ed flogM // -[j_k j']/(j_k j + m)%N natrD subr0.
  by rewrite -mulrDl; congr (_ / _); rewrite mulrDl; zmod.
split=> //; first by rewrite ed mulr_gt0.
  by rewrite el fexpD e2 (negbTE (fexp0 _)) e1.
rewrite eq e3 eSI fsqrtK //; last by have /pd_psd [_] := pd_inv pS; apply.
Qed.

Lemma joint_history (os : list obs) (j : joint) (s : kf) :
  List.Forall (@psd_obs F fsqrt fexp flog n m l T) os -> tracks s0 t j s -> 0 < \det (j_V j) -> all_ok (List.map (call_of t) os) s ->
  let j' := joint_run s0 os j in
  [/\ tracks s0 t j' (kf_run (List.map (call_of t) os) s),
      jd j' = jd j + \sum_(v <- reads ll (List.map (call_of t) os) s) v,
      fexp (jd j') = fexp (jd j) * \prod_(v <- reads lik (List.map (call_of t) os) s) v &
      jq j' = jq j + \sum_(v <- reads mahal (List.map (call_of t) os) s) v ^+ 2].
Proof.
elim: os j s => [|c os IH] j s; first by move=> _ tr hd _ /=; rewrite !big_nil !addr0 mulr1.
move=> /List.Forall_cons_iff [hc hos] tr hd [ok1 ok2].
have run1 := @run_cons F fsqrt fexp flog n m l (call_of t c) (List.map (call_of t) os) s.
case: c hc ok1 ok2 run1 => [u B A Q|z R H|R H] hc ok1 ok2 run1.
- have tr' := track_predict u B A hQ0 hc tr.
  have [h1 h2 h3 h4] := IH _ _ hos tr' hd ok2.
  rewrite [call_of _ _]/= in run1; rewrite -run1 in h1.
  by split; [exact h1|..].
- have [tr' hd' e1 e2 e3] := joint_measure_reads hc tr hd ok1.
  have [h1 h2 h3 h4] := IH _ _ hos tr' hd' ok2.
  rewrite [call_of _ _]/= in run1; rewrite -run1 in h1.
  split; first exact h1.
  + by rewrite [reads _ _ _]/= big_cons addrA -e1.
  + by rewrite [reads _ _ _]/= big_cons mulrA -e2.
  + by rewrite [reads _ _ _]/= big_cons addrA -e3.
- have tr' := track_missing R H tr.
  have [h1 h2 h3 h4] := IH _ _ hos tr' hd ok2.
  rewrite [call_of _ _]/= in run1; rewrite -run1 in h1.
  by split; [exact h1|..].
Qed.
End Run.

Lemma track_start (s : kf) (t : T) : psd (kf_P s : 'M[F]_n) -> kf_alpha_sq s = 1 :> F -> inv_exact s ->
  tracks s t (joint_start T s) s.
Proof.
move=> hP ha hi; split=> //=.
- by rewrite unitmxE det_mx00 unitr1.
- by rewrite trmx0.
- exact: psd_sym.
- by rewrite !mul0mx addr0.
- by rewrite !mul0mx subr0.
Qed.

Lemma track_run (s0 : kf) (t : T) (os : list obs) (j : joint) (s : kf) :
  psd (kf_Q s0 : 'M[F]_n) -> psd (kf_R s0 : 'M[F]_m) ->
  List.Forall (@psd_obs F fsqrt fexp flog n m l T) os -> tracks s0 t j s -> all_ok (List.map (call_of t) os) s ->
  tracks s0 t (joint_run s0 os j) (kf_run (List.map (call_of t) os) s).
Proof.
move=> hQ0 hR0; elim: os j s => [|c os IH] j s //.
move=> /List.Forall_cons_iff [hc hos] tr [ok1 ok2].
have run1 := @run_cons F fsqrt fexp flog n m l (call_of t c) (List.map (call_of t) os) s.
have tr' : tracks s0 t (joint_step s0 c j) (fst (kf_step (call_of t c) s)).
  case: c hc ok1 {ok2 run1} => [u B A Q|z R H|R H] hc ok1.
  + exact: track_predict.
  + by have [] := track_measure hR0 hc tr ok1.
  + exact: track_missing.
have h1 := IH _ _ hos tr' ok2; rewrite -run1 in h1; exact h1.
Qed.
End Joint.

(** ** C78.  The estimate and covariance after any history of predictions, measurements
    and missing measurements are the mean and covariance of the state given the whole
    record at once: the record's mean and covariance being those of the linear model. *)
Theorem C78_conditioning : forall (F : realFieldType) (fsqrt fexp flog : F -> F) (n m l : nat) (T : Type)
    (s : kf (exactO fsqrt fexp flog) n m l) (os : list (obs fsqrt fexp flog n m l T)) (t : T),
  psd (kf_P s : 'M[F]_n) -> psd (kf_Q s : 'M[F]_n) -> psd (kf_R s : 'M[F]_m) ->
  kf_alpha_sq s = 1 :> F -> inv_exact s ->
  List.Forall (@psd_obs F fsqrt fexp flog n m l T) os -> all_ok (List.map (call_of t) os) s ->
  let s' := kf_run (List.map (call_of t) os) s in
  let j := joint_run s os (joint_start T s) in
  [/\ j_V j \in unitmx,
      kf_x s' = j_mx j + j_C j *m invmx (j_V j) *m (j_z j t - j_mz j) &
      kf_P s' = j_Px j - j_C j *m invmx (j_V j) *m (j_C j)^T].
Proof.
move=> F fsqrt fexp flog n m l T s os t hP hQ hR ha hi hos hok s' j.
by have [] := track_run hQ hR hos (track_start t hP ha hi) hok.
Qed.
Print Assumptions C78_conditioning.

(** The log-likelihoods read after each update add up to the log-density of the whole
    record, the likelihoods multiply to its density, and the squared Mahalanobis distances
    add up to the squared distance of the record from its mean.  [lpdf] is the Gaussian
    log-density on definite covariances. *)
Theorem C78_likelihood : forall (F : realFieldType) (fsqrt fexp flog : F -> F) (n m l : nat) (T : Type)
    (s : kf (exactO fsqrt fexp flog) n m l) (os : list (obs fsqrt fexp flog n m l T)) (t : T)
    (lpdf : 'cV[F]_m -> 'cV[F]_m -> 'M[F]_m -> F) (fmin log2pi : F),
  (forall x mu S, pd S -> lpdf x mu S = log_density flog log2pi x mu S) ->
  (forall a b, 0 < a -> 0 < b -> flog (a * b) = flog a + flog b) ->
  (forall a b, fexp (a + b) = fexp a * fexp b) -> (forall a, fexp a != 0) ->
  (forall a, 0 <= a -> fsqrt a ^+ 2 = a) ->
  psd (kf_P s : 'M[F]_n) -> psd (kf_Q s : 'M[F]_n) -> psd (kf_R s : 'M[F]_m) ->
  kf_alpha_sq s = 1 :> F -> inv_exact s ->
  List.Forall (@psd_obs F fsqrt fexp flog n m l T) os -> all_ok (List.map (call_of t) os) s ->
  let cs := List.map (call_of t) os in
  let j := joint_run s os (joint_start T s) in
  let density := log_density flog log2pi (j_z j t) (j_mz j) (j_V j) in
  [/\ \sum_(v <- reads (fun s => fst (kf_log_likelihood (o := exactO fsqrt fexp flog) lpdf s) : F) cs s) v = density,
      \prod_(v <- reads (fun s => fst (kf_likelihood (o := exactO fsqrt fexp flog) lpdf fmin s) : F) cs s) v = fexp density &
      \sum_(v <- reads (fun s => fst (kf_mahalanobis s) : F) cs s) v ^+ 2 = qf (invmx (j_V j)) (j_z j t - j_mz j)].
Proof.
move=> F fsqrt fexp flog n m l T s os t lpdf fmin log2pi h1 h2 h3 h4 h5 hP hQ hR ha hi hos hok cs j density.
have d0 : 0 < \det (j_V (joint_start T s)) by rewrite det_mx00 ltr01.
have [_ e1 e2 e3] := joint_history hQ hR fmin h1 h2 h3 h4 h5 hos (track_start t hP ha hi) d0 hok.
have l1 : flog 1 = 0.
  by apply: (addrI (flog 1)); rewrite addr0 -h2 ?ltr01 // mulr1.
have x0 : fexp 0 = 1.
  by apply: (mulfI (h4 0)); rewrite mulr1 -h3 addr0.
have q0 : qf (invmx (j_V (joint_start T s))) (j_z (joint_start T s) t - j_mz (joint_start T s)) = 0.
  by rewrite /= subrr qf0r.
have ld0 : log_density flog log2pi (j_z (joint_start T s) t) (j_mz (joint_start T s)) (j_V (joint_start T s)) = 0.
  by rewrite /log_density q0 det_mx00 l1 mul0r !addr0 oppr0 mul0r.
rewrite ld0 add0r in e1; rewrite ld0 x0 mul1r in e2; rewrite q0 add0r in e3.
by split; [rewrite /density e1|rewrite /density e2|rewrite e3].
Qed.
Print Assumptions C78_likelihood.

(** With definite measurement noise no update fails. *)
Lemma definite_ok (F : realFieldType) (fsqrt fexp flog : F -> F) (n m l : nat) (T : Type)
    (s0 : kf (exactO fsqrt fexp flog) n m l) (t : T) (os : list (obs fsqrt fexp flog n m l T)) :
  psd (kf_Q s0 : 'M[F]_n) -> psd (kf_R s0 : 'M[F]_m) ->
  List.Forall (@psd_obs F fsqrt fexp flog n m l T) os ->
  List.Forall (fun c => match c with OMeasure _ R _ => pd (Rm s0 R) | _ => True end) os ->
  forall j s, tracks s0 t j s -> all_ok (List.map (call_of t) os) s.
Proof.
move=> hQ0 hR0; elim: os => [|c os IH] // /List.Forall_cons_iff [hc hos] /List.Forall_cons_iff [hd hds] j s tr.
have ok1 : snd (kf_step (call_of t c) s) = None.
  case: c hc hd => [u B A Q|z R H|R H] hc hd //.
  have hi := tr_i tr.
  have uS : innov_cov s R H \in unitmx.
    rewrite /innov_cov; have -> : Rm s R = Rm s0 R by rewrite /Rm (tr_R tr).
    by apply: pd_unit; apply: pd_Smx => //; exact: tr_psd tr.
  by have [-> _ _ _ _] := update_exact (z t) hi uS.
split=> //.
have tr' : tracks s0 t (joint_step s0 c j) (fst (kf_step (call_of t c) s)).
  case: c hc hd ok1 => [u B A Q|z R H|R H] hc hd ok1.
  + exact: track_predict.
  + by have [] := track_measure hR0 hc tr ok1.
  + exact: track_missing.
exact: IH hos hds _ _ tr'.
Qed.

(** ** The record of a random target *)
Section Moments.
Variable F : realFieldType.
Variables (fsqrt fexp flog : F -> F).
Notation EO := (exactO fsqrt fexp flog).
Variables n m l : nat.
Notation kf := (kf EO n m l).
Variables (T : finType) (p : T -> F).
Notation event := (event fsqrt fexp flog n m l T).
Notation joint := (joint F n T).
Notation E := (mean p).
Notation cross := (cross p).
Variable s : kf.
Notation exactly := (fun k => @eq 'M[F]_k).

Lemma cross_col a b c (f : T -> 'cV[F]_a) (g : T -> 'cV[F]_b) (h : T -> 'cV[F]_c) :
  cross (fun t => col_mx (f t) (g t)) h = col_mx (cross f h) (cross g h).
Proof.
rewrite /cross /mean; elim/big_ind3: _ => [|X X' Y Y' Z Z' -> ->|t _]; first by rewrite col_mx0.
  by rewrite add_col_mx.
by rewrite mul_col_mx scale_col_mx.
Qed.
Lemma cross_row a b c (f : T -> 'cV[F]_a) (g : T -> 'cV[F]_b) (h : T -> 'cV[F]_c) :
  cross h (fun t => col_mx (f t) (g t)) = row_mx (cross h f) (cross h g).
Proof. by rewrite -crossC cross_col tr_col_mx !crossC. Qed.
Lemma mean_col a b (f : T -> 'cV[F]_a) (g : T -> 'cV[F]_b) : E (fun t => col_mx (f t) (g t)) = col_mx (E f) (E g).
Proof.
rewrite /mean; elim/big_ind3: _ => [|X X' Y Y' Z Z' -> ->|t _]; first by rewrite col_mx0.
  by rewrite add_col_mx.
by rewrite scale_col_mx.
Qed.
Lemma uncorr_col a b (f : T -> 'cV[F]_a) (g : T -> 'cV[F]_b) (es : list event) :
  uncorr p f es -> uncorr p g es -> uncorr p (fun t => col_mx (f t) (g t)) es.
Proof.
elim: es => [|[u B A Q w|R H v|] es IH] //= [h1 h2] [h3 h4]; split; try exact: IH; by rewrite cross_col h1 h3 col_mx0.
Qed.

Record moments (es : list event) (j : joint) (X : T -> 'cV[F]_n) : Prop := Moments {
  mo_x : E (fun t => X t - j_mx j) = 0;
  mo_z : E (fun t => j_z j t - j_mz j) = 0;
  mo_P : cross (fun t => X t - j_mx j) (fun t => X t - j_mx j) = j_Px j;
  mo_C : cross (fun t => X t - j_mx j) (fun t => j_z j t - j_mz j) = j_C j;
  mo_V : cross (fun t => j_z j t - j_mz j) (fun t => j_z j t - j_mz j) = j_V j;
  mo_ux : uncorr p (fun t => X t - j_mx j) es;
  mo_uz : uncorr p (fun t => j_z j t - j_mz j) es }.

Lemma moments_step e es j X : moments (e :: es) j X -> white p exactly s (e :: es) ->
  moments es (joint_run s (obs_of s [:: e] X) j) (fun t => truth s t [:: e] (X t)).
Proof.
case: e => [u B A Q w|R H v|] mo hw //.
- case: hw => w0 wQ uw ww; case: mo => mx mz mP mC mV [ux1 ux2] [uz1 uz2].
  set A0 := opt_or (kf_F s : 'M[F]_n) A; set b := input s B u.
  have hX t : A0 *m X t + b + w t - (A0 *m j_mx j + b) = A0 *m (X t - j_mx j) + w t by mxring.
  have cwx : cross w (fun t => X t - j_mx j) = 0 by rewrite -crossC ux1 trmx0.
  have cwz : cross w (fun t => j_z j t - j_mz j) = 0 by rewrite -crossC uz1 trmx0.
  split=> //=; rewrite -/A0 -/b.
  + by rewrite (mean_ext _ hX) meanD meanMl mx mulmx0 add0r.
  + rewrite (cross_ext _ hX hX) crossDl !crossDr !crossMl !crossMr mP ux1 cwx wQ.
    by rewrite mul0mx mulmx0 addr0 add0r mulmxA.
  + by rewrite (cross_ext _ hX (fun _ => erefl)) crossDl crossMl mC cwz addr0.
  + apply: (uncorr_ext (fun t => esym (hX t))); apply: uncorrD => //; exact: uncorrM.
- case: hw => v0 vR uv ww; case: mo => mx mz mP mC mV [ux1 ux2] [uz1 uz2].
  pose z t := Hm s H *m X t + v t.
  pose y t := Hm s H *m (X t - j_mx j) + v t.
  have hZ t : col_mx (j_z j t) (z t) - col_mx (j_mz j) (Hm s H *m j_mx j) = col_mx (j_z j t - j_mz j) (y t).
    by rewrite opp_col_mx add_col_mx /y /z; congr col_mx; mxring.
  have cvx : cross v (fun t => X t - j_mx j) = 0 by rewrite -crossC ux1 trmx0.
  have cvz : cross v (fun t => j_z j t - j_mz j) = 0 by rewrite -crossC uz1 trmx0.
  have cxy : cross (fun t => X t - j_mx j) y = j_Px j *m (Hm s H)^T.
    by rewrite /y crossDr crossMr mP ux1 addr0.
  have czy : cross (fun t => j_z j t - j_mz j) y = (j_C j)^T *m (Hm s H)^T.
    by rewrite /y crossDr crossMr -crossC mC uz1 addr0.
  have cyy : cross y y = Hm s H *m j_Px j *m (Hm s H)^T + Rm s R.
    by rewrite {1}/y crossDl crossMl cxy /y crossDr crossMr cvx mul0mx add0r vR mulmxA.
  have uy : uncorr p y es by apply: uncorrD => //; exact: uncorrM.
  split=> //=.
  + by rewrite (mean_ext _ hZ) mean_col mz /y meanD meanMl mx v0 mulmx0 add0r col_mx0.
  + by rewrite (cross_ext _ (fun _ => erefl) hZ) cross_row mC cxy.
  + rewrite (cross_ext _ hZ hZ) cross_col !cross_row mV czy cyy.
    by rewrite -[cross y _]crossC czy trmx_mul !trmxK block_mxEv.
  + by apply: (uncorr_ext (fun t => esym (hZ t))); exact: uncorr_col.
- by case: mo => mx mz mP mC mV ux uz.
Qed.
Lemma white_tail e es : white p exactly s (e :: es) -> white p exactly s es.
Proof. by case: e => [u B A Q w|R H v|] //= []. Qed.
Lemma moments_run es es' j X : moments (es ++ es') j X -> white p exactly s (es ++ es') ->
  moments es' (joint_run s (obs_of s es X) j) (fun t => truth s t es (X t)).
Proof.
elim: es j X => [|e es IH] j X mo hw //.
have := IH _ _ (moments_step mo hw) (white_tail hw).
by case: e {mo hw} => [u B A Q w|R H v|].
Qed.
End Moments.

(** The law used above is the law of the record: for a target that moves and is measured
    as the matrices say, with noises of mean zero that are uncorrelated and have the
    covariances Q and R in force, the final state and the whole record have the means,
    covariances and cross covariance of [joint_run]. *)
Theorem C78_record_law : forall (F : realFieldType) (fsqrt fexp flog : F -> F) (n m l : nat)
    (T : finType) (p : T -> F) (s : kf (exactO fsqrt fexp flog) n m l)
    (es : list (event fsqrt fexp flog n m l T)) (X : T -> 'cV[F]_n),
  starts p s (fun k => @eq 'M[F]_k) es X -> white p (fun k => @eq 'M[F]_k) s es ->
  let j := joint_run s (obs_of s es X) (joint_start T s) in
  let dx t := truth s t es (X t) - j_mx j in
  let dz t := j_z j t - j_mz j in
  [/\ mean p dx = 0, mean p dz = 0, cross p dx dx = j_Px j, cross p dz dz = j_V j & cross p dx dz = j_C j] /\
  (forall t, List.map (call_of t) (obs_of s es X) = calls s t es (X t)).
Proof.
move=> F fsqrt fexp flog n m l T p s es X [h1 h2 h3] hw j dx dz; split; last first.
  move=> t {h1 h2 h3 hw j dx dz}; elim: es X => [|[u B A Q w|R H v|] es IH] X //=; by rewrite IH.
have z0 a (f : T -> 'M[F]_(0, a)) : mean p f = 0 by apply/matrixP => -[].
have mo : moments p es (joint_start T s) X.
  split=> //; try by apply/matrixP => -[].
  - by apply/matrixP => i [].
  - by elim: es {h3 hw j dx dz} => [|[u B A Q w|R H v|] es IH] //=; split=> //; apply/matrixP => -[].
by have [] := @moments_run F fsqrt fexp flog n m l T p s es [::] _ _ ltac:(by rewrite cats0; exact: mo) ltac:(by rewrite cats0).
Qed.
Print Assumptions C78_record_law.

(** The same over the real numbers, with their square root, exponential and logarithm, and
    the Gaussian density: nothing is assumed but what concerns the filter. *)
Notation Rf := RealField.R_realFieldType.
Notation RE := (@exactO Rf Reals.R_sqrt.sqrt Reals.Rtrigo_def.exp Reals.Rpower.ln).
Definition real_lpdf m : 'cV[Rf]_m -> 'cV[Rf]_m -> 'M[Rf]_m -> Rf :=
  @log_density Rf Reals.Rpower.ln (Reals.Rpower.ln (2%:R * (Reals.Rtrigo1.PI : Rf))) m.

Theorem C78_likelihood_real : forall (n m l : nat) (T : Type) (s : kf RE n m l)
    (os : list (@obs Rf Reals.R_sqrt.sqrt Reals.Rtrigo_def.exp Reals.Rpower.ln n m l T)) (t : T) (fmin : Rf),
  psd (kf_P s : 'M[Rf]_n) -> psd (kf_Q s : 'M[Rf]_n) -> psd (kf_R s : 'M[Rf]_m) ->
  kf_alpha_sq s = 1 :> Rf -> inv_exact s ->
  List.Forall (@psd_obs Rf _ _ _ n m l T) os -> all_ok (List.map (call_of t) os) s ->
  let cs := List.map (call_of t) os in
  let j := joint_run s os (joint_start T s) in
  [/\ \sum_(v <- reads (fun s => fst (kf_log_likelihood (o := RE) (@real_lpdf m) s) : Rf) cs s) v =
        real_lpdf (j_z j t) (j_mz j) (j_V j),
      \prod_(v <- reads (fun s => fst (kf_likelihood (o := RE) (@real_lpdf m) fmin s) : Rf) cs s) v =
        Reals.Rtrigo_def.exp (real_lpdf (j_z j t) (j_mz j) (j_V j)) &
      \sum_(v <- reads (fun s => fst (kf_mahalanobis (o := RE) s) : Rf) cs s) v ^+ 2 = qf (invmx (j_V j)) (j_z j t - j_mz j)].
Proof.
move=> n m l T s os t fmin hP hQ hR ha hi hos hok.
exact: (C78_likelihood fmin (fun _ _ _ _ => erefl) RealField.R_lnM RealField.R_expD RealField.R_exp_neq0 RealField.R_sqrtK
  hP hQ hR ha hi hos hok).
Qed.
Print Assumptions C78_likelihood_real.

(** A new filter with H = 1 that measures 1, predicts, misses a measurement and measures 3. *)
Definition ex_real : kf RE 1 1 0 :=
  @set_kf_H RE 1 1 0 (1%:M : 'M[Rf]_1) (@kf_init RE 1 1 0 (1 : Rf) (@mx_inv Rf 1)).
Definition ex_obs : list (@obs Rf Reals.R_sqrt.sqrt Reals.Rtrigo_def.exp Reals.Rpower.ln 1 1 0 unit) :=
  [:: @OMeasure Rf _ _ _ 1 1 0 unit (fun=> 1%:M) None None; @OPredict Rf _ _ _ 1 1 0 unit None None None None;
      @OMissing Rf _ _ _ 1 1 0 unit None None; @OMeasure Rf _ _ _ 1 1 0 unit (fun=> 3%:R%:M) None None].
Example C78_applies : let s := ex_real in let os := ex_obs in
  [/\ psd (kf_P s : 'M[Rf]_1), psd (kf_Q s : 'M[Rf]_1), psd (kf_R s : 'M[Rf]_1), kf_alpha_sq s = 1 :> Rf &
      [/\ inv_exact s, List.Forall (@psd_obs Rf _ _ _ 1 1 0 unit) os, all_ok (List.map (call_of tt) os) s &
      j_k (joint_run s os (joint_start unit s)) = 2%N]].
Proof.
have p1 : psd (1%:M : 'M[Rf]_1) by exact: psd1.
have hi : inv_exact ex_real by [].
have hos : List.Forall (@psd_obs Rf Reals.R_sqrt.sqrt Reals.Rtrigo_def.exp Reals.Rpower.ln 1 1 0 unit) ex_obs.
  by do !constructor.
split=> //; split=> //.
- have hd : List.Forall (fun c => match c with OMeasure _ R _ => pd (Rm ex_real R) | _ => True end) ex_obs.
    have p1d : pd (1%:M : 'M[Rf]_1) by exact: pd1.
    by repeat first [exact: List.Forall_nil | apply: List.Forall_cons; first exact p1d || exact I].
  have tr : tracks ex_real tt (joint_start unit ex_real) ex_real by exact: track_start.
  exact (@definite_ok Rf _ _ _ 1 1 0 unit ex_real tt ex_obs p1 p1 hos hd _ _ tr).
Qed.
