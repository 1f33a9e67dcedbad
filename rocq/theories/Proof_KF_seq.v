(** * Sequential, reordered and correlated updates in exact arithmetic. *)
From Coq Require Permutation.
From mathcomp Require Import all_ssreflect all_algebra.
From Verif Require Import Ops Exact Spec ZmodTac LinAlg Model_KF Spec_KF Spec_KF_exact Proof_KF Proof_KF_exact.
Set Implicit Arguments.
Unset Strict Implicit.
Unset Printing Implicit Defensive.
Import Order.TTheory GRing.Theory Num.Theory.
Local Open Scope ring_scope.

Section Seq.
Variable F : realFieldType.
Variables (fsqrt fexp flog : F -> F).
Notation EO := (exactO fsqrt fexp flog).
Notation sel := (@sel F).

Lemma sel_id n : sel n 0 n = 1%:M.
Proof. by apply/matrixP => i j; rewrite !mxE add0n. Qed.
Lemma sel_col p k m : sel (p + k) 0 m = col_mx (sel p 0 m) (sel k p m).
Proof.
apply/matrixP => i j; rewrite -(splitK i); case: (split i) => i' /=.
  by rewrite col_mxEu !mxE.
by rewrite col_mxEd !mxE.
Qed.
Lemma sel_free p m : (p <= m)%N -> sel p 0 m *m (sel p 0 m)^T = 1%:M.
Proof.
move=> hp; apply/matrixP => i j.
have hi : (0 + i < m)%N by rewrite add0n (leq_trans (ltn_ord i)).
by rewrite (sel_mul _ _ hi) !mxE !add0n eq_sym.
Qed.
Lemma unit0 (A : 'M[F]_0) : A \in unitmx.
Proof. by rewrite unitmxE det_mx00 unitr1. Qed.

Lemma pd_row_free p m (A : 'M[F]_m) (B : 'M[F]_(p,m)) C : B *m C = 1%:M -> pd A -> pd (B *m A *m B^T).
Proof.
move=> hB pA; split; first exact: sym_congr (pd_psd pA).1.
move=> v vn0; rewrite qf_congr; apply: pA.2; apply: contra vn0 => /eqP h.
apply/eqP; have : C^T *m (B^T *m v) = 0 by rewrite h mulmx0.
by rewrite mulmxA -trmx_mul hB trmx1 mul1mx.
Qed.

Lemma inv11 (S : 'M[F]_1) : S \in unitmx -> invmx S = (S 0 0)^-1 *: 1%:M.
Proof.
move=> uS; have hS : S = (S 0 0)%:M by rewrite [LHS]mx11_scalar.
have s0 : S 0 0 != 0 by move: uS; rewrite {1}hS unitmxE det_scalar expr1 unitfE.
apply: (can_inj (mulKmx uS)); rewrite mulmxV // -scalemxAr mulmx1.
by rewrite [X in _ *: X]hS scale_scalar_mx mulVf.
Qed.

Section Filter.
Variables n m l : nat.
Notation kf := (kf EO n m l).
Variables (x0 : 'cV[F]_n) (P0 : 'M[F]_n) (H0 : 'M[F]_(m,n)) (R0 : 'M[F]_m) (z : 'cV[F]_m).
Hypotheses (pP : psd P0) (pR : psd R0) (uS : Smx P0 H0 R0 \in unitmx).

Definition topH p := sel p 0 m *m H0.
Definition topR p := sel p 0 m *m R0 *m (sel p 0 m)^T.
Definition topz p := sel p 0 m *m z.

Lemma topS p : Smx P0 (topH p) (topR p) = sel p 0 m *m Smx P0 H0 R0 *m (sel p 0 m)^T.
Proof. rewrite /Smx /topH /topR; mxring. Qed.

Lemma unit_top p : (p <= m)%N -> Smx P0 (topH p) (topR p) \in unitmx.
Proof.
move=> hp; rewrite topS; apply: pd_unit.
apply: (pd_row_free (sel_free hp)); apply: psd_unit_pd uS; exact: psd_Smx.
Qed.

Lemma psd_topR p : psd (topR p). Proof. exact: psd_congr. Qed.

(** One block on top of the first [p] rows. *)
Lemma top_step p k : (p + k <= m)%N ->
  (forall i j : 'I_m, (i < p)%N -> (p <= j)%N -> R0 i j = 0) ->
  let Hk := sel k p m *m H0 in let Rk := sel k p m *m R0 *m (sel k p m)^T in
  let P1 := Pup P0 (topH p) (topR p) in
  [/\ Smx P1 Hk Rk \in unitmx,
      xup x0 P0 (topH (p + k)) (topR (p + k)) (topz (p + k)) =
      xup (xup x0 P0 (topH p) (topR p) (topz p)) P1 Hk Rk (sel k p m *m z) &
      Pup P0 (topH (p + k)) (topR (p + k)) = Pup P1 Hk Rk].
Proof.
move=> hpk h0 Hk Rk P1.
have hp : (p <= m)%N by rewrite (leq_trans _ hpk) ?leq_addr.
have sP := psd_sym pP; have sR := psd_sym pR.
have eH : topH (p + k) = col_mx (topH p) Hk by rewrite /topH sel_col mul_col_mx.
have ez : topz (p + k) = col_mx (topz p) (sel k p m *m z) by rewrite /topz sel_col mul_col_mx.
have ur : sel p 0 m *m R0 *m (sel k p m)^T = 0.
  apply/matrixP => i j; rewrite [RHS]mxE.
  have hi : (0 + i < m)%N by rewrite add0n (leq_trans (ltn_ord i)).
  have hj : (p + j < m)%N by rewrite (leq_trans _ hpk) // ltn_add2l.
  rewrite -(trmxK (_ *m _)) mxE trmx_mul trmxK (sel_mul _ _ hj) mxE (sel_mul _ _ hi).
  by apply: h0; rewrite /= ?add0n ?leq_addr.
have dl : sel k p m *m R0 *m (sel p 0 m)^T = 0.
  by have := congr1 trmx ur; rewrite trmx0 !trmxM trmxK sR mulmxA.
have eR : topR (p + k) = block_mx (topR p) 0 0 Rk.
  rewrite /topR sel_col tr_col_mx mul_col_mx mul_col_row ur dl //.
have uSp : Smx P0 (topH p) (topR p) \in unitmx by exact: unit_top.
have sRp : (topR p)^T = topR p by exact: psd_sym (psd_topR p).
have sRk : Rk^T = Rk by apply: psd_sym; apply: psd_congr.
have u2 : Smx P1 Hk Rk \in unitmx.
  by rewrite -(Sstack_unit Hk Rk uSp) // -eH -eR; apply: unit_top.
split=> //; first by rewrite eH eR ez xup_stack.
by rewrite eH eR Pup_stack.
Qed.

Lemma top0x : xup x0 P0 (topH 0) (topR 0) (topz 0) = x0.
Proof. by rewrite /xup (thinmx0 (Kmx _ _ _)) mul0mx addr0. Qed.
Lemma top0P : Pup P0 (topH 0) (topR 0) = P0.
Proof.
by rewrite /Pup /Jmx (thinmx0 (Kmx _ _ _)) !mul0mx subr0 trmx1 mulmx1 mul1mx addr0.
Qed.
Lemma topmx : xup x0 P0 (topH m) (topR m) (topz m) = xup x0 P0 H0 R0 z.
Proof. by rewrite /topH /topR /topz !sel_id trmx1 !mul1mx mulmx1. Qed.
Lemma topmP : Pup P0 (topH m) (topR m) = Pup P0 H0 R0.
Proof. by rewrite /topH /topR !sel_id trmx1 !mul1mx mulmx1. Qed.

Lemma seq_run (ks : list nat) p (s : kf) :
  (p + sumn ks = m)%N ->
  kf_H s = H0 -> kf_R s = R0 ->
  (forall b, b \in p :: scanl addn p ks -> forall i j : 'I_m, (i < b)%N -> (b <= j)%N -> R0 i j = 0) ->
  kf_x s = xup x0 P0 (topH p) (topR p) (topz p) ->
  kf_P s = Pup P0 (topH p) (topR p) ->
  all_ok (@seq_calls F fsqrt fexp flog n m l ks p z) s /\
  kf_x (kf_run (@seq_calls F fsqrt fexp flog n m l ks p z) s) = xup x0 P0 H0 R0 z /\
  kf_P (kf_run (@seq_calls F fsqrt fexp flog n m l ks p z) s) = Pup P0 H0 R0.
Proof.
elim: ks p s => [|k ks IH] p s /=.
  rewrite addn0 => e _ _ _ -> ->; move: e => ->.
  by rewrite topmx topmP.
move=> e hH hR hb hx hP.
have hpk : (p + k <= m)%N by rewrite -e leq_add2l leq_addr.
have [u2 ex eP] := top_step hpk (hb p (mem_head _ _)).
pose c := @CUpdateSeq EO n m l k (@mx_inv F k) p
  (\matrix_(i < k, j < 1) mx_get z (p + i) j : M EO k 1) None None.
have zk : (\matrix_(i < k, j < 1) mx_get z (p + i) j) = sel k p m *m z.
  apply/matrixP => i j; have hi : (p + i < m)%N by rewrite (leq_trans _ hpk) // ltn_add2l.
  by rewrite (sel_mul _ _ hi) mxE (mx_getP z hi (ltn_ord j)); congr (z _ _); apply: val_inj.
set Hk := sel k p m *m H0 in u2 ex eP; set Rk := sel k p m *m R0 *m _ in u2 ex eP.
have eHk : mslice (o := EO) (kf_H s) p 0 k n = Hk.
  by rewrite mslice_sel // hH sel_id trmx1 mulmx1.
have eRk : mslice (o := EO) (kf_R s) p p k k = Rk by rewrite mslice_sel // hR.
set P1 := Pup P0 (topH p) (topR p) in u2 ex eP hP.
have eS : mslice (o := EO) (kf_H s) p 0 k n *m (kf_P s *m (mslice (o := EO) (kf_H s) p 0 k n)^T)
          + mslice (o := EO) (kf_R s) p p k k = Smx P1 Hk Rk by rewrite eHk eRk hP.
have [] := @seq_ok_fields EO n m l k (@mx_inv F k) p
   (\matrix_(i < k, j < 1) mx_get z (p + i) j) None None (Kmx P1 Hk Rk) s _ _.
- exact/ssrnat.leP.
- rewrite /opt_or /sm_or -[madd _ _]/(_ + _) -[mdot _ _]/(_ *m _) -[mtr _]/(_^T).
  rewrite -[mdot (kf_P s) _]/(_ *m _).
  have -> : (mslice (o := EO) (kf_H s) p 0 k n *m (kf_P s *m (mslice (o := EO) (kf_H s) p 0 k n)^T)
    + mslice (o := EO) (kf_R s) p p k k : M EO k k) = Smx P1 Hk Rk := eS.
  rewrite eHk hP; case: PeanoNat.Nat.eqb_spec => hk.
    congr Some; rewrite /Kmx; clear -u2 hk; move: Hk Rk u2; rewrite hk => Hk Rk u2.
    rewrite inv11 // -scalemxAr mulmx1 /=; congr (_ *: _).
    by rewrite mul1r; congr (_^-1); rewrite (mx_getE _ 0 0).
  by rewrite /mx_inv u2.
move=> ok [fx fP].
have [_ [_ [_ [cH [cR _]]]]] := @step_config EO n m l c s.
have [] := IH (p + k)%N (fst (kf_step c s)).
- by rewrite -addnA.
- by rewrite cH.
- by rewrite cR.
- by move=> b hin; apply: hb; rewrite in_cons hin orbT.
- apply: (etrans fx); rewrite ex -hx /xup /opt_or -[mdot _ (kf_x s)]/(_ *m _) eHk zk; congr (_ + _).
- by apply: (etrans fP); rewrite eP /opt_or /sm_or eHk eRk hP.
move=> h1 [h2 h3]; split; first by split.
by split.
Qed.
End Filter.

(** Order of independent sensors. *)
Section Order.
Variables n m l : nat.
Notation kf := (kf EO n m l).
Implicit Types (s : kf) (r : reading F n m).
Notation rcall := (@reading_call F fsqrt fexp flog n m l).

Lemma reading_exact r s : inv_exact s -> Smx (kf_P s) (rd_H r) (rd_R r) \in unitmx ->
  exists s1, [/\ kf_step (rcall r) s = (s1, None),
      kf_x s1 = xup (kf_x s) (kf_P s) (rd_H r) (rd_R r) (rd_z r),
      kf_P s1 = Pup (kf_P s) (rd_H r) (rd_R r) & inv_exact s1].
Proof.
move=> hi uS.
have := @update_exact F fsqrt fexp flog n m l s (rd_z r) (Some (@Mat EO m (rd_R r))) (Some (rd_H r)) hi uS.
case E : (kf_step (rcall r) s) => [s1 e].
move: (E); rewrite /reading_call step_updateE => E'; rewrite E' [fst _]/= [snd _]/=; case=> e1 _ _ _ [_ e6 e7]; exists s1; split; [by rewrite e1|exact: e6|exact: e7|].
by move=> A; rewrite (step_inv _ _ _ _ _ _ _ _ E).
Qed.

Lemma reading_pd r s : inv_exact s -> psd (kf_P s : 'M[F]_n) -> pd (rd_R r) ->
  exists s1, [/\ kf_step (rcall r) s = (s1, None),
      kf_x s1 = xup (kf_x s) (kf_P s) (rd_H r) (rd_R r) (rd_z r),
      kf_P s1 = Pup (kf_P s) (rd_H r) (rd_R r), inv_exact s1 & psd (kf_P s1 : 'M[F]_n)].
Proof.
move=> hi pP pR.
have uS : Smx (kf_P s) (rd_H r) (rd_R r) \in unitmx by apply: pd_unit; exact: pd_Smx.
have [s1 [h1 h2 h3 h4]] := reading_exact hi uS; exists s1; split=> //.
by rewrite h3; apply: psd_Jmx => //; exact: pd_psd.
Qed.

Definition agree (l1 l2 : list (reading F n m)) s s' : Prop :=
  [/\ all_ok (List.map rcall l1) s, all_ok (List.map rcall l2) s',
  kf_x (kf_run (List.map rcall l2) s') = kf_x (kf_run (List.map rcall l1) s) &
  kf_P (kf_run (List.map rcall l2) s') = kf_P (kf_run (List.map rcall l1) s)].

Lemma agree_cons r r' l1 l2 s s' s1 s1' :
  kf_step (rcall r) s = (s1, None) -> kf_step (rcall r') s' = (s1', None) ->
  agree l1 l2 s1 s1' -> agree (r :: l1) (r' :: l2) s s'.
Proof.
move=> e e' [h1 h2 h3 h4].
have [f1 f2] := @run_cons_ok EO n m l (rcall r) (List.map rcall l1) s s1 e.
have [f1' f2'] := @run_cons_ok EO n m l (rcall r') (List.map rcall l2) s' s1' e'.
split; [exact: f2|exact: f2'| |].
- by apply: etrans (esym (congr1 (@kf_x EO n m l) f1)); apply: etrans (congr1 (@kf_x EO n m l) f1') _.
- by apply: etrans (esym (congr1 (@kf_P EO n m l) f1)); apply: etrans (congr1 (@kf_P EO n m l) f1') _.
Qed.

Lemma agree_same (rs : list (reading F n m)) : List.Forall (fun r => pd (rd_R r)) rs ->
  forall s s', inv_exact s -> inv_exact s' -> psd (kf_P s : 'M[F]_n) ->
  kf_x s' = kf_x s -> kf_P s' = kf_P s -> agree rs rs s s'.
Proof.
elim: rs => [|r rs IH] hf s s' hi hi' pP ex eP; first by split.
have pr := List.Forall_inv hf; have hf' := List.Forall_inv_tail hf.
have [s1 [a1 a2 a3 a4 a5]] := reading_pd hi pP pr.
have pP' : psd (kf_P s' : 'M[F]_n) by rewrite eP.
have [s1' [b1 b2 b3 b4 b5]] := reading_pd hi' pP' pr.
apply: (agree_cons a1 b1); apply: (IH hf' s1 s1' a4 b4 a5).
  by rewrite a2 b2 ex eP.
by rewrite a3 b3 eP.
Qed.

Lemma readings_perm (l1 l2 : list (reading F n m)) : Permutation.Permutation l1 l2 ->
  List.Forall (fun r => pd (rd_R r)) l1 ->
  forall s s', inv_exact s -> inv_exact s' -> psd (kf_P s : 'M[F]_n) ->
  kf_x s' = kf_x s -> kf_P s' = kf_P s -> agree l1 l2 s s'.
Proof.
elim=> [|r l1' l2' _ IH|r1 r2 l'|l1' l2' l3' p1 IH1 p2 IH2].
- by move=> _ s s' _ _ _ ex eP; split.
- move=> hf s s' hi hi' pP ex eP.
  have pr := List.Forall_inv hf; have hf' := List.Forall_inv_tail hf.
  have [s1 [a1 a2 a3 a4 a5]] := reading_pd hi pP pr.
  have pP' : psd (kf_P s' : 'M[F]_n) by rewrite eP.
  have [s1' [b1 b2 b3 b4 b5]] := reading_pd hi' pP' pr.
  apply: (agree_cons a1 b1); apply: (IH hf' s1 s1' a4 b4 a5).
    by rewrite a2 b2 ex eP.
  by rewrite a3 b3 eP.
- move=> hf s s' hi hi' pP ex eP.
  have pr2 := List.Forall_inv hf; have pr1 := List.Forall_inv (List.Forall_inv_tail hf).
  have hf' := List.Forall_inv_tail (List.Forall_inv_tail hf).
  have pP' : psd (kf_P s' : 'M[F]_n) by rewrite eP.
  have [t1 [a1 a2 a3 a4 a5]] := reading_pd hi pP pr2.
  have [t2 [a1' a2' a3' a4' a5']] := reading_pd a4 a5 pr1.
  have [u1 [b1 b2 b3 b4 b5]] := reading_pd hi' pP' pr1.
  have [u2 [b1' b2' b3' b4' b5']] := reading_pd b4 b5 pr2.
  have v1 : Smx (kf_P s) (rd_H r1) (rd_R r1) \in unitmx by apply: pd_unit; exact: pd_Smx.
  have v2 : Smx (kf_P s) (rd_H r2) (rd_R r2) \in unitmx by apply: pd_unit; exact: pd_Smx.
  have v12 : Smx (Pup (kf_P s) (rd_H r1) (rd_R r1)) (rd_H r2) (rd_R r2) \in unitmx.
    by apply: pd_unit; apply: pd_Smx pr2; rewrite -eP -b3.
  apply: (agree_cons a1 b1); apply: (agree_cons a1' b1').
  apply: (agree_same hf' a4' b4' a5').
    by rewrite a2' a2 a3 b2' b2 b3 ex eP (xup_swap v1 v2 v12).
  by rewrite a3' a3 b3' b3 eP (Pup_swap v1 v2 v12).
- move=> hf s s' hi hi' pP ex eP.
  have hf2 : List.Forall (fun r => pd (rd_R r)) l2' := Permutation.Permutation_Forall p1 hf.
  have [c1 c2 c3 c4] := IH1 hf s s hi hi pP erefl erefl.
  have [d1 d2 d3 d4] := IH2 hf2 s s' hi hi' pP ex eP.
  by split=> //; [apply: etrans d3 c3|apply: etrans d4 c4].
Qed.
End Order.
End Seq.
