(** * Sequential, reordered and correlated updates, change of coordinates:
    C13, C14, C15, C17. *)
From Coq Require Permutation.
From mathcomp Require Import all_ssreflect all_algebra.
From Verif Require Import Ops Exact Spec ZmodTac LinAlg Model_KF Spec_KF Spec_KF_exact Proof_KF
  Proof_KF_exact Proof_KF_seq Proof_KF_coords Prop_KF_exact.
Set Implicit Arguments.
Unset Strict Implicit.
Unset Printing Implicit Defensive.
Import Order.TTheory GRing.Theory Num.Theory.
Local Open Scope ring_scope.

Opaque kf_update kf_update_correlated kf_step.

(** ** C13 *)
Theorem C13_sequential_is_joint : forall (F : realFieldType) (fsqrt fexp flog : F -> F) (n m l : nat)
    (ks : list nat) (z : 'cV[F]_m) (s : kf (exactO fsqrt fexp flog) n m l),
  psd (kf_P s : 'M[F]_n) -> psd (kf_R s : 'M[F]_m) -> inv_exact s ->
  innov_cov s None None \in unitmx ->
  sumn ks = m -> blocks_uncorrelated (kf_R s) ks ->
  let cs := @seq_calls F fsqrt fexp flog n m l ks 0 z in
  let joint := fst (kf_update (Some z : option (M (exactO fsqrt fexp flog) m 1)) None None s) in
  [/\ all_ok cs s, kf_x (kf_run cs s) = kf_x joint & kf_P (kf_run cs s) = kf_P joint].
Proof.
move=> F f1 f2 f3 n m l ks z s pP pR hi uS hs hb cs joint.
have [_ _ _ _ [_ ex eP]] := update_exact z hi uS.
have [] := @seq_run F f1 f2 f3 n m l (kf_x s) (kf_P s) (kf_H s) (kf_R s) z pP pR uS ks 0%N s hs erefl erefl _ _ _.
- move=> b; rewrite in_cons => /orP [/eqP -> // | hin]; exact: hb.
- by rewrite top0x.
- by rewrite top0P.
move=> h1 [h2 h3]; split; first exact: h1.
  by rewrite /cs h2 /joint ex.
by rewrite /cs h3 /joint eP.
Qed.
Print Assumptions C13_sequential_is_joint.

(** Two scalar blocks, with the identity noise. *)
Example C13_example : [/\ psd (kf_P exa : 'M[rat]_2), psd (kf_R exa : 'M[rat]_2), inv_exact exa &
  [/\ innov_cov exa None None \in unitmx, sumn [:: 1; 1]%N = 2%N & blocks_uncorrelated (kf_R exa) [:: 1; 1]%N]].
Proof.
split; try exact: psd1; first exact: exa_inv.
split; [exact: exa_unit|by []|].
move=> b _ i j hi hj; rewrite -[kf_R exa]/(1%:M : 'M[rat]_2) mxE.
by case: eqP => // e; move: hi; rewrite e ltnNge hj.
Qed.

(** ** C14: any number of independent sensors, in any order. *)
Theorem C14_any_order : forall (F : realFieldType) (fsqrt fexp flog : F -> F) (n m l : nat)
    (rs rs' : list (reading F n m)) (s : kf (exactO fsqrt fexp flog) n m l),
  psd (kf_P s : 'M[F]_n) -> inv_exact s ->
  List.Forall (fun r => pd (rd_R r)) rs -> Permutation.Permutation rs rs' ->
  let a := kf_run (List.map (@reading_call F fsqrt fexp flog n m l) rs) s in
  let b := kf_run (List.map (@reading_call F fsqrt fexp flog n m l) rs') s in
  [/\ all_ok (List.map (@reading_call F fsqrt fexp flog n m l) rs') s, kf_x b = kf_x a & kf_P b = kf_P a].
Proof.
move=> F f1 f2 f3 n m l rs rs' s pP hi hr hp a b.
by have [_ h1 h2 h3] := readings_perm hp hr hi hi pP erefl erefl; split.
Qed.
Print Assumptions C14_any_order.

(** Two sensors, noise possibly singular: it is enough that no update raises. *)
Theorem C14_two_sensors : forall (F : realFieldType) (fsqrt fexp flog : F -> F) (n m l : nat)
    (r1 r2 : reading F n m) (s : kf (exactO fsqrt fexp flog) n m l),
  inv_exact s ->
  let run := fun rs => kf_run (List.map (@reading_call F fsqrt fexp flog n m l) rs) s in
  all_ok (List.map (@reading_call F fsqrt fexp flog n m l) [:: r1; r2]) s ->
  all_ok (List.map (@reading_call F fsqrt fexp flog n m l) [:: r2; r1]) s ->
  kf_x (run [:: r1; r2]) = kf_x (run [:: r2; r1]) /\ kf_P (run [:: r1; r2]) = kf_P (run [:: r2; r1]).
Proof.
move=> F f1 f2 f3 n m l r1 r2 s hi run.
have un r (t : kf (exactO f1 f2 f3) n m l) : inv_exact t ->
    snd (kf_step (@reading_call F f1 f2 f3 n m l r) t) = None -> Smx (kf_P t) (rd_H r) (rd_R r) \in unitmx.
  move=> ht h; apply: contraT => nu; move: h.
  have e : kf_inv t (innov_cov t (Some (@Mat (exactO f1 f2 f3) m (rd_R r))) (Some (rd_H r))
    : M (exactO f1 f2 f3) m m) = None by rewrite ht /mx_inv (negbTE nu).
  have := @update_fails (exactO f1 f2 f3) n m l (rd_z r) (Some (@Mat (exactO f1 f2 f3) m (rd_R r))) (Some (rd_H r)) t e.
  by rewrite /reading_call step_updateE => ->.
set c1 := @reading_call F f1 f2 f3 n m l r1; set c2 := @reading_call F f1 f2 f3 n m l r2.
move=> [o1 [o2 _]] [o3 [o4 _]].
have u1 := un _ _ hi o1; have u2 := un _ _ hi o3.
have [s1 [a1 a2 a3 a4]] := reading_exact hi u1.
have [s2 [b1 b2 b3 b4]] := reading_exact hi u2.
move: o2 o4; rewrite -/c1 -/c2 a1 b1 => o2 o4.
have u12 := un _ _ a4 o2; have u21 := un _ _ b4 o4.
have [s12 [d1 d2 d3 _]] := reading_exact a4 u12.
have [s21 [e1 e2 e3 _]] := reading_exact b4 u21.
have -> : run [:: r1; r2] = s12.
  have [f _] := @run_cons_ok _ _ _ _ c1 [:: c2] s s1 a1; apply: etrans f _.
  by have [f _] := @run_cons_ok _ _ _ _ c2 [::] s1 s12 d1.
have -> : run [:: r2; r1] = s21.
  have [f _] := @run_cons_ok _ _ _ _ c2 [:: c1] s s2 b1; apply: etrans f _.
  by have [f _] := @run_cons_ok _ _ _ _ c1 [::] s2 s21 e1.
rewrite d2 d3 e2 e3 a2 a3 b2 b3; rewrite a3 in u12; split.
  exact: xup_swap.
exact: Pup_swap.
Qed.
Print Assumptions C14_two_sensors.

Example C14_example :
  let r1 := mkReading (const_mx 1 : 'cV[rat]_2) 1%:M (1%:M : 'M[rat]_2) in
  let r2 := mkReading (const_mx 5%:R : 'cV[rat]_2) (2%:R *: 1%:M) (2%:R *: 1%:M : 'M[rat]_2) in
  List.Forall (fun r => pd (rd_R r)) [:: r1; r2] /\ Permutation.Permutation [:: r1; r2] [:: r2; r1].
Proof.
split; last exact: Permutation.perm_swap.
apply: List.Forall_cons; first exact: pd1.
apply: List.Forall_cons; last exact: List.Forall_nil.
by apply: pdZ => //; exact: pd1.
Qed.

(** ** C15 *)
Theorem C15_zero_correlation : forall (F : realFieldType) (fsqrt fexp flog : F -> F) (n m l : nat)
    (z : 'cV[F]_m) R H (s : kf (exactO fsqrt fexp flog) n m l),
  kf_M s = (0 : 'M[F]_(n,m)) -> inv_exact s -> innov_cov s R H \in unitmx ->
  let c := kf_update_correlated (Some z : option (M (exactO fsqrt fexp flog) m 1)) R H s in
  let u := kf_update (Some z : option (M (exactO fsqrt fexp flog) m 1)) R H s in
  snd c = snd u /\
  [/\ kf_x (fst c) = kf_x (fst u), kf_P (fst c) = kf_P (fst u), kf_K (fst c) = kf_K (fst u),
      kf_S (fst c) = kf_S (fst u) & kf_y (fst c) = kf_y (fst u)].
Proof.
move=> F f1 f2 f3 n m l z R H s M0 hi uS c u.
have [e1 e2 e3 _ [e5 e6 e7]] := update_exact z hi uS.
have eS : Hm s H *m (kf_P s *m (Hm s H)^T) + Hm s H *m kf_M s + (kf_M s)^T *m (Hm s H)^T + Rm s R
   = innov_cov s R H by rewrite M0 trmx0 mulmx0 mul0mx !addr0.
have ei : kf_inv s (Hm s H *m (kf_P s *m (Hm s H)^T) + Hm s H *m kf_M s + (kf_M s)^T *m (Hm s H)^T + Rm s R
   : M (exactO f1 f2 f3) m m) = Some (invmx (innov_cov s R H)) by rewrite eS hi /mx_inv uS.
have [g1 [g2 [g3 [g4 [g5 [g6 _]]]]]] := @corr_ok_fields (exactO f1 f2 f3) n m l z R H _ s ei.
have eK : (kf_P s *m (Hm s H)^T + kf_M s) *m invmx (innov_cov s R H) = Kmx (kf_P s) (Hm s H) (Rm s R).
  by rewrite M0 addr0.
split; first exact: (etrans g1 (esym e1)).
split.
- by apply: (etrans g2); apply: esym; apply: (etrans e6); rewrite -eK.
- apply: (etrans g3); apply: esym; apply: (etrans e7); rewrite Jmx_short //; apply: esym.
  rewrite -[msub _ _]/(kf_P s - (kf_P s *m (Hm s H)^T + kf_M s) *m invmx (innov_cov s R H) *m (Hm s H *m kf_P s + (kf_M s)^T)).
  by rewrite eK M0 trmx0 addr0; mxring.
- by apply: (etrans g4); apply: esym; apply: (etrans e5); rewrite -eK.
- by apply: (etrans g6); apply: esym; apply: (etrans e3); rewrite -eS.
- exact: (etrans g5 (esym e2)).
Qed.
Print Assumptions C15_zero_correlation.

(** With any cross covariance M the gain is the optimal one and P its error
    covariance. *)
Theorem C15_correlated_optimal : forall (F : realFieldType) (fsqrt fexp flog : F -> F) (n m l : nat)
    (z : 'cV[F]_m) R H (s : kf (exactO fsqrt fexp flog) n m l) (G : 'M[F]_(n,m)),
  psd (block_mx (kf_P s : 'M[F]_n) (kf_M s : 'M[F]_(n,m)) (kf_M s)^T (Rm s R)) ->
  inv_exact s ->
  let S := Hm s H *m (kf_P s *m (Hm s H)^T) + Hm s H *m kf_M s + (kf_M s)^T *m (Hm s H)^T + Rm s R in
  S \in unitmx ->
  let r := kf_update_correlated (Some z : option (M (exactO fsqrt fexp flog) m 1)) R H s in
  let s' := fst r in
  let cov := est_cov_corr (kf_P s) (Hm s H) (Rm s R) (kf_M s) in
  snd r = None /\
  [/\ kf_P s' = cov (kf_K s'), kf_P s' = kf_P s - kf_K s' *m S *m (kf_K s')^T,
      kf_x s' = kf_x s + kf_K s' *m (z - Hm s H *m kf_x s),
      mle (kf_P s') (cov G) & psd (kf_P s' : 'M[F]_n)].
Proof.
move=> F f1 f2 f3 n m l z R H s G pJ hi S uS r s' cov.
have ei : kf_inv s (S : M (exactO f1 f2 f3) m m) = Some (invmx S) by rewrite hi /mx_inv uS.
have [g1 [g2 [g3 [g4 [g5 [g6 _]]]]]] := @corr_ok_fields (exactO f1 f2 f3) n m l z R H _ s ei.
have [sJ _] := pJ.
move: sJ; rewrite /sym tr_block_mx trmxK => /eq_block_mx [sP _ _ sR].
set X := Hm s H; set Mm : 'M[F]_(n,m) := kf_M s; set P : 'M[F]_n := kf_P s.
pose K := (P *m X^T + Mm) *m invmx S.
have eK : kf_K s' = K := g4.
have covE A : cov A = row_mx (1%:M - A *m X) (- A) *m block_mx P Mm Mm^T (Rm s R) *m (row_mx (1%:M - A *m X) (- A))^T.
  rewrite mul_row_block tr_row_mx mul_row_col /cov /est_cov_corr -/X -/Mm -/P.
  move: (1%:M - A *m X) (Rm s R) => B RR; mxring.
have pcov A : psd (cov A) by rewrite covE; apply: psd_congr.
have sS : S^T = S.
  rewrite /S -/X -/Mm -/P.
  have -> : X *m (P *m X^T) + X *m Mm + Mm^T *m X^T + Rm s R =
    row_mx X 1%:M *m block_mx P Mm Mm^T (Rm s R) *m (row_mx X 1%:M)^T.
    rewrite mul_row_block tr_row_mx mul_row_col; move: (Rm s R) => RR; mxring.
  exact: (psd_sym (psd_congr _ pJ)).
have pS : psd S.
  rewrite /S -/X -/Mm -/P.
  have -> : X *m (P *m X^T) + X *m Mm + Mm^T *m X^T + Rm s R =
    row_mx X 1%:M *m block_mx P Mm Mm^T (Rm s R) *m (row_mx X 1%:M)^T.
    rewrite mul_row_block tr_row_mx mul_row_col; move: (Rm s R) => RR; mxring.
  exact: (psd_congr _ pJ).
have KS : K *m S = P *m X^T + Mm by rewrite /K mulmxKV.
have SK : S *m K^T = X *m P + Mm^T.
  by rewrite -[LHS]trmxK trmxM trmxK sS KS trmxD trmxM trmxK sP.
have covQ A : cov A = P - A *m (X *m P + Mm^T) - (P *m X^T + Mm) *m A^T + A *m S *m A^T.
  rewrite /cov /est_cov_corr -/X -/Mm -/P /S -/X -/Mm -/P; move: (Rm s R) => RR; mxring.
have gap A : cov A - cov K = (A - K) *m S *m (A - K)^T.
  rewrite !covQ trmxB !mulmxBl !mulmxBr KS -(mulmxA A S K^T) SK.
  have -> : (P *m X^T + Mm) *m K^T = K *m (X *m P + Mm^T) by rewrite -KS -mulmxA SK.
  zmod.
have eP : kf_P s' = P - K *m (X *m P + Mm^T) := g3.
have eP' : kf_P s' = cov K.
  rewrite eP covQ -(mulmxA K S) SK.
  have -> : (P *m X^T + Mm) *m K^T = K *m (X *m P + Mm^T) by rewrite -KS -mulmxA SK.
  zmod.
split; first exact: g1.
split.
- by rewrite eK.
- by rewrite eK eP -(mulmxA K S) SK.
- by rewrite eK; exact: g2.
- by rewrite eP' /mle gap; apply: psd_congr.
- by rewrite eP'.
Qed.
Print Assumptions C15_correlated_optimal.

(** P = R = H = 2I, M = I: the joint covariance is positive definite. *)
Definition exc : kf RO 2 2 0 :=
  @set_kf_M RO 2 2 0 (1%:M : 'M[rat]_2) (@set_kf_P RO 2 2 0 (2%:R *: 1%:M : 'M[rat]_2)
    (@set_kf_R RO 2 2 0 (2%:R *: 1%:M : 'M[rat]_2) exa)).
Example C15_example : psd (block_mx (kf_P exc : 'M[rat]_2) (kf_M exc : 'M[rat]_(2,2)) (kf_M exc)^T (Rm exc None)) /\
  let S := Hm exc None *m (kf_P exc *m (Hm exc None)^T) + Hm exc None *m kf_M exc
           + (kf_M exc)^T *m (Hm exc None)^T + Rm exc None in S \in unitmx.
Proof.
split.
  have -> : block_mx (kf_P exc : 'M[rat]_2) (kf_M exc : 'M[rat]_(2,2)) (kf_M exc)^T (Rm exc None) =
    1%:M + col_mx 1%:M 1%:M *m (col_mx 1%:M 1%:M)^T.
    rewrite -[kf_P exc]/(2%:R *: 1%:M : 'M[rat]_2) -[kf_M exc]/(1%:M : 'M[rat]_2).
    rewrite -[Rm exc None]/(2%:R *: 1%:M : 'M[rat]_2) tr_col_mx mul_col_row !trmx1 !mulmx1.
    rewrite [X in X + _]scalar_mx_block add_block_mx !add0r.
    by rewrite (_ : 2%:R = 1 + 1) // scalerDl !scale1r.
  by apply: psdD; [exact: psd1|exact: psd_gram].
cbv zeta; have -> : Hm exc None *m (kf_P exc *m (Hm exc None)^T) + Hm exc None *m kf_M exc
           + (kf_M exc)^T *m (Hm exc None)^T + Rm exc None
  = 1%:M *m (2%:R *: 1%:M *m 1%:M^T) + 1%:M *m 1%:M + 1%:M^T *m 1%:M^T + (2%:R *: 1%:M : 'M[rat]_2) by [].
rewrite !trmx1 !mulmx1 !mul1mx.
have -> : 2%:R *: 1%:M + 1%:M + 1%:M + 2%:R *: 1%:M = (6%:R)%:M :> 'M[rat]_2.
  by rewrite scale_scalar_mx -!raddfD.
by rewrite unitmxE det_scalar.
Qed.

(** ** C17: the filter does not depend on the choice of state coordinates; the
    inverse routine is arbitrary. *)
Theorem C17_coordinate_change : forall (F : realFieldType) (fsqrt fexp flog : F -> F) (n m l : nat)
    (T : 'M[F]_n) (cs : list (kf_call (exactO fsqrt fexp flog) n m l)) (s s' : kf (exactO fsqrt fexp flog) n m l),
  T \in unitmx -> in_coords T s s' ->
  in_coords T (kf_run cs s) (kf_run (List.map (@call_in_coords F fsqrt fexp flog n m l T) cs) s').
Proof. by move=> *; apply: run_coords. Qed.
Print Assumptions C17_coordinate_change.

(** Every filter has a description in the coordinates 2x. *)
Lemma coords_exist (F : realFieldType) (fsqrt fexp flog : F -> F) (n m l : nat) (T : 'M[F]_n)
  (s : kf (exactO fsqrt fexp flog) n m l) : exists s', in_coords T s s'.
Proof.
exists (@mkKF (exactO fsqrt fexp flog) n m l (T *m kf_x s) (T *m kf_P s *m T^T) (T *m kf_Q s *m T^T)
  (option_map (fun B : 'M[F]_(n,l) => T *m B) (kf_B s))
  (T *m kf_F s *m invmx T) (kf_H s *m invmx T) (kf_R s) (kf_alpha_sq s) (T *m kf_M s)
  (kf_z s) (T *m kf_K s) (kf_y s) (kf_S s) (kf_SI s) (T *m kf_x_prior s)
  (T *m kf_P_prior s *m T^T) (T *m kf_x_post s) (T *m kf_P_post s *m T^T) None None None (kf_inv s)).
by [].
Qed.
Example C17_example : (2%:R *: 1%:M : 'M[rat]_2) \in unitmx /\ exists s', in_coords (2%:R *: 1%:M) exa s'.
Proof. by split; [rewrite scalemx1 unitmxE det_scalar | exact: coords_exist]. Qed.
