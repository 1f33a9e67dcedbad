(** * C82: what NEES and the squared Mahalanobis distances average to. *)
From mathcomp Require Import all_ssreflect all_algebra.
From Verif Require Import Ops Exact Spec ZmodTac LinAlg Model_KF Spec_KF Spec_KF_exact Spec_Stat
  Proof_KF Proof_KF_exact Proof_KF_order Prop_KF_exact Prop_Stat Prop_Joint Model_Stats.
Set Implicit Arguments.
Unset Strict Implicit.
Unset Printing Implicit Defensive.
Import Order.TTheory GRing.Theory Num.Theory.
Local Open Scope ring_scope.

Opaque kf_update kf_update_correlated.
Section Trace.
Variable F : realFieldType.
Lemma block_dr n1 n2 (A : 'M[F]_n1) B C (D : 'M[F]_n2) : psd (block_mx A B C D) -> psd D.
Proof.
move=> p; have -> : D = row_mx 0 1%:M *m block_mx A B C D *m (row_mx 0 1%:M)^T.
  by rewrite tr_row_mx mul_row_block mul_row_col trmx0 trmx1 !mul0mx !mul1mx !add0r mulmx0 mulmx1 add0r.
exact: psd_congr.
Qed.
Lemma block_ul n1 n2 (A : 'M[F]_n1) B C (D : 'M[F]_n2) : psd (block_mx A B C D) -> psd A.
Proof.
move=> p; have -> : A = row_mx 1%:M 0 *m block_mx A B C D *m (row_mx 1%:M 0)^T.
  by rewrite tr_row_mx mul_row_block mul_row_col trmx0 trmx1 !mul0mx !mul1mx !addr0 mulmx0 mulmx1 addr0.
exact: psd_congr.
Qed.
Lemma qf_tr n (A : 'M[F]_n) (v : 'cV[F]_n) : qf A v = \tr (A *m (v *m v^T)).
Proof. by rewrite mulmxA mxtrace_mulC mulmxA /qf /mxtrace big_ord1. Qed.

(** The trace of a product of two positive semidefinite matrices is not negative. *)
Lemma psd_trace n (A D : 'M[F]_n) : psd A -> psd D -> 0 <= \tr (A *m D).
Proof.
elim: n A D => [|n IH] A D pA pD; first by rewrite /mxtrace big_ord0.
change 'M[F]_(1 + n) in A; change 'M[F]_(1 + n) in D.
have eD := submxK D; set a := ulsubmx D in eD; set b := ursubmx D in eD; set c := dlsubmx D in eD; set D0 := drsubmx D in eD.
have pB : psd (block_mx a b c D0) by rewrite eD.
have ebc : b = c^T by move/psd_sym: pB; rewrite tr_block_mx => /eq_block_mx [_ -> _ _].
have pa := block_ul pB; have pD0 := block_dr pB.
have a0 : 0 <= a 0 0 by have := proj2 pa 1%:M; rewrite /qf trmx1 mulmx1 mul1mx.
have ea : a = (a 0 0)%:M by rewrite -mx11_scalar.
have eA := submxK A; have pA' : psd (drsubmx A) by apply: (@block_dr 1 n (ulsubmx A) (ursubmx A) (dlsubmx A)); rewrite eA.
have tr_dr (X : 'M[F]_n) : \tr (A *m block_mx (0 : 'M[F]_1) 0 0 X) = \tr (drsubmx A *m X).
  by rewrite -{1}eA mulmx_block !mulmx0 !addr0 mxtrace_block mxtrace0 !add0r.
have [z|nz] := eqVneq (a 0 0) 0.
- have c0 : c = 0.
    have : block_mx a b c D0 *m col_mx 1%:M 0 = 0.
      apply: psd_ker => //.
      by rewrite /qf tr_col_mx trmx1 trmx0 mul_row_block mul_row_col !mul1mx !mul0mx !mulmx0 !addr0 mulmx1 z.
    by rewrite mul_block_col !mulmx1 !mulmx0 !addr0 -[0 in RHS](vsubmxK 0) !linear0 => /eq_col_mx [].
  have -> : D = block_mx (0 : 'M[F]_1) 0 0 D0.
    by rewrite -eD ebc c0 trmx0 ea z -[0%:M]scalemx1 scale0r.
  by rewrite tr_dr IH.
- have ap : 0 < a 0 0 by rewrite lt_neqAle eq_sym nz.
  pose D' := D0 - (a 0 0)^-1 *: (c *m c^T).
  have pD' : psd D'.
    have -> : D' = row_mx (- (a 0 0)^-1 *: c) 1%:M *m block_mx a b c D0 *m (row_mx (- (a 0 0)^-1 *: c) 1%:M)^T.
      rewrite tr_row_mx mul_row_block mul_row_col !mul1mx trmx1 mulmx1 ebc {2}ea -!scalemxAl.
      rewrite mul_mx_scalar scalerA mulNr mulVf // scaleN1r addNr mul0mx add0r /D'.
      by rewrite scaleNr addrC.
    exact: psd_congr.
  pose v : 'cV[F]_(1 + n) := col_mx a c.
  have -> : D = (a 0 0)^-1 *: (v *m v^T) + block_mx (0 : 'M[F]_1) 0 0 D'.
    rewrite -eD /v tr_col_mx mul_col_row scale_block_mx add_block_mx !addr0 ebc.
    have k1 (q r : nat) (X : 'M[F]_(q, r)) : (a 0 0)^-1 *: (a 0 0 *: X) = X by rewrite scalerA mulVf // scale1r.
    congr block_mx.
    - by rewrite {4}ea tr_scalar_mx mul_mx_scalar k1.
    - by rewrite {2}ea mul_scalar_mx k1.
    - by rewrite {2}ea tr_scalar_mx mul_mx_scalar k1.
    - by rewrite /D' addrC subrK.
  rewrite mulmxDr mxtraceD tr_dr -scalemxAr mxtraceZ -qf_tr addr_ge0 ?IH //.
  by rewrite mulr_ge0 ?invr_ge0 // ; case: pA.
Qed.
End Trace.

Section Avg.
Variable F : realFieldType.
Variables (fsqrt fexp flog : F -> F).
Notation EO := (exactO fsqrt fexp flog).
Variables n m l : nat.
Notation kf := (kf EO n m l).
Variables (T : finType) (p : T -> F).
Notation event := (event fsqrt fexp flog n m l T).

Lemma uncorr_take a (f : T -> 'cV[F]_a) (es : list event) k : uncorr p f es -> uncorr p f (take k es).
Proof. by elim: es k => [|[u B A Q w|R H v|] es IH] [|k] //= => [[h /IH]|[h /IH]|/IH]. Qed.
Lemma white_take rel (s : kf) (es : list event) k : white p rel s es -> white p rel s (take k es).
Proof.
elim: es k => [|[u B A Q w|R H v|] es IH] [|k] //=; last exact: IH.
- by case=> h1 h2 /(@uncorr_take _ _ _ k) h3 /(IH k) h4.
- by case=> h1 h2 /(@uncorr_take _ _ _ k) h3 /(IH k) h4.
Qed.
Lemma starts_take rel (s : kf) (es : list event) X k : starts p s rel es X -> starts p s rel (take k es) X.
Proof. by case=> h1 h2 /(@uncorr_take _ _ _ k) h3. Qed.
Lemma calls_take (s : kf) (es : list event) t X k : calls s t (take k es) X = take k (calls s t es X).
Proof. by elim: es k X => [|[u B A Q w|R H v|] es IH] [|k] X //=; rewrite IH. Qed.
Lemma all_ok_take (cs : list (kf_call EO n m l)) (s : kf) k : all_ok cs s -> all_ok (take k cs) s.
Proof. by elim: cs s k => [|c cs IH] s [|k] //= [h1 /(IH _ k) h2]. Qed.

Lemma mean_qf a (A : 'M[F]_a) (f : T -> 'cV[F]_a) : \sum_t p t * qf A (f t) = \tr (A *m cross p f f).
Proof.
rewrite /cross /mean mulmx_sumr raddf_sum; apply: eq_bigr => t _.
by rewrite qf_tr -scalemxAr; exact/esym/mxtraceZ.
Qed.

(** NEES on any track for which every covariance can be inverted. *)
Lemma neesE (w : list ('cV[F]_n * 'cV[F]_n * 'M[F]_n)) : (forall q, q \in w -> q.2 \in unitmx) ->
  @NEES EO n (@mx_inv F n) [seq q.1.1 | q <- w] [seq q.1.2 | q <- w] [seq q.2 | q <- w] =
  Ok [seq qf (invmx q.2) (q.1.1 - q.1.2) | q <- w].
Proof.
move=> h; rewrite /NEES !List.map_length PeanoNat.Nat.eqb_refl /=.
elim: w h => [|[[x e] C] w IH] h //=.
rewrite {1}/mx_inv (h (x, e, C)) ?mem_head // IH => [|q hq]; last by apply: h; rewrite inE hq orbT.
by rewrite /= -[0%N]/(nat_of_ord (0 : 'I_1)) mx_getE.
Qed.

(** Models that understate the noise: the error has at least the reported covariance.  (As cons_run in Prop_Stat.) *)
Section Optimistic.
Variable s : kf.
Hypothesis alpha1 : kf_alpha_sq s = 1 :> F.
Notation at_least := (fun k A B => @mle F k B A).

Record opt_inv (es : list event) (P : 'M[F]_n) (st : T -> kf) (X : T -> 'cV[F]_n) : Prop := OptInv {
  oi_tg : together s P st;
  oi_cov : mle P (cross p (fun t => X t - kf_x (st t)) (fun t => X t - kf_x (st t)));
  oi_ue : uncorr p (fun t => X t - kf_x (st t)) es }.

Lemma opt_run (t0 : T) es P st X : opt_inv es P st X -> white p at_least s es ->
  (forall t, all_ok (calls s t es (X t)) (st t)) ->
  exists P', forall st' X', (forall t, st' t = kf_run (calls s t es (X t)) (st t)) ->
      (forall t, X' t = truth s t es (X t)) -> opt_inv nil P' st' X'.
Proof.
elim: es P st X => [|[u B A Q w|R H v|] es IH] P st X h hw hok.
- exists P; move=> st' X' e1 e2; case: h => tg eP ue.
  have he t : X' t - kf_x (st' t) = X t - kf_x (st t) by rewrite e1 e2.
  split=> //.
  + by case: tg => *; split=> t; rewrite e1 /kf_run /calls /List.fold_left.
  + rewrite (cross_ext p he he); exact eP.
- case: hw => w0 wQ uw ww; case: h => tg eP [ue1 ue2].
  have [tg' hx] := predict_step u B A Q tg; cbv zeta in tg', hx.
  have h' : opt_inv es (pred_cov s A Q P) (fun t => fst (kf_step (@CPredict EO n m l u B A Q) (st t)))
      (fun t => opt_or (kf_F s : 'M[F]_n) A *m X t + input s B u + w t).
    move: tg' hx; set st' := fun t => fst (kf_step _ _) => tg' hx.
    set A0 := opt_or _ _ in hx *; set e := fun t => X t - kf_x (st t) in eP ue1 ue2.
    have he t : A0 *m X t + input s B u + w t - kf_x (st' t) = A0 *m e t + w t by rewrite hx /e mulmxBr; zmod.
    split=> //.
    + rewrite (cross_ext p he he) crossDl !crossDr !crossMl !crossMr ue1 -(crossC p e w) ue1.
      rewrite trmx0 !mulmx0 mul0mx addr0 add0r mulmxA /pred_cov; apply: mleD => //.
      by rewrite alpha1 scale1r; exact: mle_congr.
    + apply: (uncorr_ext (fun t => esym (he t))); apply: uncorrD => //; exact: uncorrM.
  have [P' k1] := IH _ _ _ h' ww (fun t => proj2 (hok t)).
  exists P' => st' X' e1 e2; apply: k1 => t; [rewrite e1; exact (Prop_Stat.run_cons _ _ _)|exact (e2 t)].
- case: hw => v0 vR uv ww; case: h => tg eP [ue1 ue2].
  have [uS tg' hx _ _] := @update_step F fsqrt fexp flog n m l T s P st R H (fun t => Hm s H *m X t + v t) tg (ex_intro _ t0 (proj1 (hok t0))); cbv zeta in uS, tg', hx.
  have h' : opt_inv es (Jmx P (Hm s H) (Rm s R) (Kmx P (Hm s H) (Rm s R)))
      (fun t => fst (kf_step (@CUpdate EO n m l (Some (Hm s H *m X t + v t)) R H) (st t))) X.
    move: tg' hx; set st' := fun t => fst (kf_step _ _); set K := Kmx _ _ _ => tg' hx.
    set e := fun t => X t - kf_x (st t) in eP ue1 ue2.
    have he t : X t - kf_x (st' t) = (1%:M - K *m Hm s H) *m e t + (- K) *m v t.
      by rewrite hx /e mulNmx mulmxBl mul1mx !mulmxBr !mulmxDr !mulmxA; zmod.
    have cve : cross p v e = 0 by rewrite -crossC ue1 trmx0.
    split=> //.
    + rewrite (cross_ext p he he) crossDl !crossDr !crossMl !crossMr ue1 cve /Jmx.
      rewrite linearN /= !mulNmx !mulmxN !mul0mx !mulmx0 ?oppr0 opprK addr0 add0r !mulmxA.
      by apply: mleD; exact: mle_congr.
    + apply: (uncorr_ext (fun t => esym (he t))); apply: uncorrD; exact: uncorrM.
  have [P' k1] := IH _ _ _ h' ww (fun t => proj2 (hok t)).
  exists P' => st' X' e1 e2; apply: k1 => t; [rewrite e1; exact (Prop_Stat.run_cons _ _ _)|exact (e2 t)].
- case: h => tg eP ue; have [tg' hx] := miss_step tg; cbv zeta in tg', hx.
  have h' : opt_inv es P (fun t => fst (kf_step (@CUpdate EO n m l None None None) (st t))) X.
    move: tg' hx; set st' := fun t => fst (kf_step _ _) => tg' hx.
    have he t : X t - kf_x (st' t) = X t - kf_x (st t) by rewrite hx.
    split; [exact tg'|rewrite (cross_ext p he he); exact eP|exact: (uncorr_ext (fun t => esym (he t)))].
  have [P' k1] := IH _ _ _ h' hw (fun t => proj2 (hok t)).
  exists P' => st' X' e1 e2; apply: k1 => t; [rewrite e1; exact (Prop_Stat.run_cons _ _ _)|exact (e2 t)].
Qed.
End Optimistic.

Variables (s : kf) (es : list event) (X : T -> 'cV[F]_n).
(** The target, the estimate and its covariance after the first [k] events. *)
Definition true_at k t : 'cV[F]_n := truth s t (take k es) (X t).
Definition x_at k t : 'cV[F]_n := kf_x (estimate s (take k es) X t).
Definition P_at k t : 'M[F]_n := kf_P (estimate s (take k es) X t).
Definition nees (ks : list nat) (t : T) : res (list F) :=
  @NEES EO n (@mx_inv F n) [seq true_at k t | k <- ks] [seq x_at k t | k <- ks] [seq P_at k t | k <- ks].
Lemma nees_at ks t : (forall k, k \in ks -> P_at k t \in unitmx) ->
  nees ks t = Ok [seq qf (invmx (P_at k t)) (err s (take k es) X t) | k <- ks].
Proof.
move=> h; rewrite /nees.
have -> : [seq true_at k t | k <- ks] = [seq q.1.1 | q <- [seq (true_at k t, x_at k t, P_at k t) | k <- ks]] by rewrite -map_comp.
have -> : [seq x_at k t | k <- ks] = [seq q.1.2 | q <- [seq (true_at k t, x_at k t, P_at k t) | k <- ks]] by rewrite -map_comp.
have -> : [seq P_at k t | k <- ks] = [seq q.2 | q <- [seq (true_at k t, x_at k t, P_at k t) | k <- ks]] by rewrite -map_comp.
rewrite neesE => [|q /mapP [k hk ->]]; last exact: h.
by rewrite -map_comp.
Qed.
Lemma mean_total (f : nat -> T -> F) (ks : list nat) (c : F) :
  \sum_t p t * ((\sum_(v <- [seq f k t | k <- ks]) v) / c) = (\sum_(k <- ks) \sum_t p t * f k t) / c.
Proof.
rewrite exchange_big /= mulr_suml; apply: eq_bigr => t _.
by rewrite big_map mulrA -mulr_sumr.
Qed.
End Avg.

(** ** C82.  When the model is right, NEES averages dim_x: at every epoch over the outcomes, and so does its mean over any
    list of epochs of the track. *)
Theorem C82_nees_averages_dim_x : forall (F : realFieldType) (fsqrt fexp flog : F -> F) (n m l : nat)
    (T : finType) (p : T -> F) (s : kf (exactO fsqrt fexp flog) n m l)
    (es : list (event fsqrt fexp flog n m l T)) (X : T -> 'cV[F]_n) (ks : list nat),
  probability p -> inv_exact s -> kf_alpha_sq s = 1 :> F ->
  starts p s (fun k => @eq 'M[F]_k) es X -> white p (fun k => @eq 'M[F]_k) s es ->
  (forall t, all_ok (calls s t es (X t)) s) ->
  (forall k t, k \in ks -> P_at s es X k t \in unitmx) ->
  exists e : T -> list F,
  [/\ forall t, nees s es X ks t = Ok (e t), forall t, size (e t) = size ks,
      forall i, (i < size ks)%N -> \sum_t p t * nth 0 (e t) i = n%:R &
      ks != [::] -> \sum_t p t * ((\sum_(v <- e t) v) / (size ks)%:R) = n%:R].
Proof.
move=> F f1 f2 f3 n m l T p s es X ks hp hi ha hs hw hok hu.
pose q k t := qf (invmx (P_at s es X k t)) (err s (take k es) X t).
have qE k : k \in ks -> \sum_t p t * q k t = n%:R.
  move=> hk; have okk t : all_ok (calls s t (take k es) (X t)) s by rewrite calls_take; exact: all_ok_take.
  have [_ c] := C70_reported_covariance hp hi ha (starts_take k hs) (white_take k hw) okk.
  pose C := cross p (err s (take k es) X) (err s (take k es) X).
  have cE t : P_at s es X k t = C by rewrite /C (c t).
  have [t0 _] := prob_point hp; have uC : C \in unitmx by rewrite -(cE t0); exact: hu.
  under eq_bigr => t _ do rewrite /q cE.
  by rewrite mean_qf mulVmx // mxtrace1.
exists (fun t => [seq q k t | k <- ks]); split.
- by move=> t; apply: nees_at => k hk; exact: hu.
- by move=> t; rewrite size_map.
- move=> i hi'; rewrite -(qE (nth 0%N ks i)) ?mem_nth //; by apply: eq_bigr => t _; rewrite (nth_map 0%N).
- move=> ne; rewrite mean_total (eq_big_seq (fun=> n%:R)) => [|k hk]; last exact: qE.
  rewrite big_const_seq count_predT iter_addr_0 -mulr_natr mulfK // pnatr_eq0.
  by case: ks ne {hu qE}.
Qed.
Print Assumptions C82_nees_averages_dim_x.

(** When the filter exaggerates the noise (or alpha > 1) it averages at most dim_x: the criterion in NEES's docstring. *)
Theorem C82_nees_at_most_dim_x : forall (F : realFieldType) (fsqrt fexp flog : F -> F) (n m l : nat)
    (T : finType) (p : T -> F) (s : kf (exactO fsqrt fexp flog) n m l)
    (es : list (event fsqrt fexp flog n m l T)) (X : T -> 'cV[F]_n) (ks : list nat),
  probability p -> inv_exact s -> 1 <= (kf_alpha_sq s : F) ->
  starts p s (fun k => @mle F k) es X -> white p (fun k => @mle F k) s es ->
  (forall t, all_ok (calls s t es (X t)) s) ->
  (forall k t, k \in ks -> P_at s es X k t \in unitmx) ->
  exists e : T -> list F,
  [/\ forall t, nees s es X ks t = Ok (e t), forall t, size (e t) = size ks,
      forall i, (i < size ks)%N -> \sum_t p t * nth 0 (e t) i <= n%:R &
      ks != [::] -> \sum_t p t * ((\sum_(v <- e t) v) / (size ks)%:R) <= n%:R].
Proof.
move=> F f1 f2 f3 n m l T p s es X ks hp hi ha [hs0 hs hs2] hw hok hu.
pose q k t := qf (invmx (P_at s es X k t)) (err s (take k es) X t).
have qE k : k \in ks -> \sum_t p t * q k t <= n%:R.
  move=> hk; have okk t : all_ok (calls s t (take k es) (X t)) s by rewrite calls_take; exact: all_ok_take.
  have [t0 _] := prob_point hp.
  have h0 : cons_inv p s (take k es) (kf_P s) (fun=> s) X by split=> //; exact: uncorr_take.
  have [P' k1] := cons_run ha (proj1 hp) t0 h0 (white_take k hw) okk.
  have [tg eP _] := k1 (estimate s (take k es) X) (fun t => truth s t (take k es) (X t)) (fun=> erefl) (fun=> erefl).
  have cE t : P_at s es X k t = P' by exact: (tg_P tg t).
  have uP : P' \in unitmx by rewrite -(cE t0); exact: hu.
  pose C := cross p (err s (take k es) X) (err s (take k es) X).
  have hC : psd C by apply: psd_cross; case: hp.
  have hP : psd P' by rewrite -(subrK C P'); apply: psdD.
  under eq_bigr => t _ do rewrite /q cE.
  rewrite mean_qf -/C -(mxtrace1 F n) -(mulVmx uP) -subr_ge0 -raddfB /= -mulmxBr.
  by apply: psd_trace => //; exact/pd_psd/pd_inv/psd_unit_pd.
exists (fun t => [seq q k t | k <- ks]); split.
- by move=> t; apply: nees_at => k hk; exact: hu.
- by move=> t; rewrite size_map.
- move=> i hi'; apply: le_trans (qE (nth 0%N ks i) _); last exact: mem_nth.
  by rewrite le_eqVlt; apply/orP; left; apply/eqP; apply: eq_bigr => t _; rewrite (nth_map 0%N).
- move=> ne; rewrite mean_total ler_pdivr_mulr; last by rewrite ltr0n; case: ks ne {hu qE}.
  rewrite mulr_natr -[X in X *+ _]/(n%:R) -(count_predT ks) -iter_addr_0 -big_const_seq.
  by rewrite big_seq [X in _ <= X]big_seq; apply: ler_sum.
Qed.
Print Assumptions C82_nees_at_most_dim_x.

(** When the filter understates the noise it averages at least dim_x. *)
Theorem C82_nees_at_least_dim_x : forall (F : realFieldType) (fsqrt fexp flog : F -> F) (n m l : nat)
    (T : finType) (p : T -> F) (s : kf (exactO fsqrt fexp flog) n m l)
    (es : list (event fsqrt fexp flog n m l T)) (X : T -> 'cV[F]_n) (ks : list nat),
  probability p -> inv_exact s -> kf_alpha_sq s = 1 :> F ->
  starts p s (fun k A B => @mle F k B A) es X -> white p (fun k A B => @mle F k B A) s es ->
  (forall t, all_ok (calls s t es (X t)) s) ->
  (forall k t, k \in ks -> pd (P_at s es X k t)) ->
  exists e : T -> list F,
  [/\ forall t, nees s es X ks t = Ok (e t), forall t, size (e t) = size ks,
      forall i, (i < size ks)%N -> n%:R <= \sum_t p t * nth 0 (e t) i &
      ks != [::] -> n%:R <= \sum_t p t * ((\sum_(v <- e t) v) / (size ks)%:R)].
Proof.
move=> F f1 f2 f3 n m l T p s es X ks hp hi ha [hs0 hs hs2] hw hok hu.
pose q k t := qf (invmx (P_at s es X k t)) (err s (take k es) X t).
have qE k : k \in ks -> n%:R <= \sum_t p t * q k t.
  move=> hk; have okk t : all_ok (calls s t (take k es) (X t)) s by rewrite calls_take; exact: all_ok_take.
  have [t0 _] := prob_point hp.
  have h0 : opt_inv p s (take k es) (kf_P s) (fun=> s) X by split=> //; exact: uncorr_take.
  have [P' k1] := opt_run ha t0 h0 (white_take k hw) okk.
  have [tg eP _] := k1 (estimate s (take k es) X) (fun t => truth s t (take k es) (X t)) (fun=> erefl) (fun=> erefl).
  have cE t : P_at s es X k t = P' by exact: (tg_P tg t).
  have dP : pd P' by rewrite -(cE t0); exact: hu.
  under eq_bigr => t _ do rewrite /q cE.
  rewrite mean_qf -(mxtrace1 F n) -(mulVmx (pd_unit dP)) -subr_ge0 -raddfB /= -mulmxBr.
  by apply: psd_trace; [exact/pd_psd/pd_inv|exact: eP].
exists (fun t => [seq q k t | k <- ks]); split.
- by move=> t; apply: nees_at => k hk; exact/pd_unit/hu.
- by move=> t; rewrite size_map.
- move=> i hi'; apply: le_trans (qE (nth 0%N ks i) _) _; first exact: mem_nth.
  by rewrite le_eqVlt; apply/orP; left; apply/eqP; apply: eq_bigr => t _; rewrite (nth_map 0%N).
- move=> ne; rewrite mean_total ler_pdivl_mulr; last by rewrite ltr0n; case: ks ne {hu qE}.
  rewrite mulr_natr -(count_predT ks) -iter_addr_0 -big_const_seq.
  by rewrite big_seq [X in _ <= X]big_seq; apply: ler_sum.
Qed.
Print Assumptions C82_nees_at_least_dim_x.

(** The squared Mahalanobis distance of the measurement, as the filter reports it after update, averages dim_z. *)
Theorem C82_mahalanobis_averages_dim_z : forall (F : realFieldType) (fsqrt fexp flog : F -> F) (n m l : nat)
    (T : finType) (p : T -> F) (s : kf (exactO fsqrt fexp flog) n m l)
    (es : list (event fsqrt fexp flog n m l T)) R H v (X : T -> 'cV[F]_n),
  let es' := es ++ [:: Look R H v] in
  (forall a, 0 <= a -> fsqrt a ^+ 2 = a) ->
  probability p -> inv_exact s -> kf_alpha_sq s = 1 :> F ->
  starts p s (fun k => @eq 'M[F]_k) es' X -> white p (fun k => @eq 'M[F]_k) s es' ->
  (forall t, all_ok (calls s t es' (X t)) s) ->
  \sum_t p t * (fst (kf_mahalanobis (estimate s es' X t)) : F) ^+ 2 = m%:R.
Proof.
move=> F f1 f2 f3 n m l T p s es R H v X es' hsq hp hi ha hs hw hok.
have [t0 _] := prob_point hp.
have [_ yS _] := C70_residuals_white hp hi ha hs hw hok.
set y := fun t => _ in yS; pose S := cross p y y.
have ecalls t Y : calls s t es' Y = calls s t es Y ++ [:: @CUpdate (exactO f1 f2 f3) n m l (Some (Hm s H *m truth s t es Y + v t)) R H].
  by rewrite /es'; clear; elim: es Y => [|[u B A Q w|R' H' v'|] es IH] Y //=; rewrite IH.
have aok cs ds (r : kf (exactO f1 f2 f3) n m l) : all_ok (cs ++ ds) r -> all_ok cs r /\ all_ok ds (kf_run cs r).
  by elim: cs r => [|c cs IH] r //= [h1 h2]; have [h3 h4] := IH _ h2.
have est t : estimate s es' X t = fst (kf_step (@CUpdate (exactO f1 f2 f3) n m l (Some (Hm s H *m truth s t es (X t) + v t)) R H) (estimate s es X t)).
  by rewrite /estimate ecalls; exact: (List.fold_left_app _ (calls s t es (X t)) [:: _] s).
have inv t : inv_exact (estimate s es X t).
  by move=> A; rewrite /estimate; have [_ [_ [_ [_ [_ [_ ->]]]]]] := @run_config (exactO f1 f2 f3) n m l (calls s t es (X t)) s; exact: hi.
have [uS SI] : S \in unitmx /\ forall t, kf_SI (estimate s es' X t) = invmx S.
  have un t : innov_cov (estimate s es X t) R H \in unitmx.
    have := hok t; rewrite ecalls => /aok [_ [h _]].
    move: h; rewrite (@step_updateE (exactO f1 f2 f3) n m l) => h; apply/negPn/negP => nu.
    have e0 : kf_inv (estimate s es X t) (innov_cov (estimate s es X t) R H : M (exactO f1 f2 f3) m m) = None.
      by rewrite (inv t (innov_cov (estimate s es X t) R H)) /mx_inv (negbTE nu).
    by rewrite (@update_fails (exactO f1 f2 f3) n m l _ _ _ _ e0) in h.
  have SE t : S = innov_cov (estimate s es X t) R H.
    rewrite /S (yS t) est (@step_updateE (exactO f1 f2 f3) n m l).
    by have [_ _ -> _ _] := update_exact (Hm s H *m truth s t es (X t) + v t) (inv t) (un t).
  split=> [|t]; first by rewrite (SE t0).
  rewrite est (@step_updateE (exactO f1 f2 f3) n m l) (SE t).
  by have [_ _ _ -> _] := update_exact (Hm s H *m truth s t es (X t) + v t) (inv t) (un t).
have hS : psd S by apply: psd_cross; case: hp.
have mE t : (fst (kf_mahalanobis (estimate s es' X t)) : F) ^+ 2 = qf (invmx S) (y t).
  have [_ _] := @read_update F f1 f2 f3 n m l (fun _ _ _ => 0) 0 (Some (Hm s H *m truth s t es (X t) + v t)) R H (estimate s es X t).
  rewrite -est SI => ->; rewrite -/(qf (invmx S) (y t)) hsq //.
  by have [] := pd_psd (pd_inv (psd_unit_pd hS uS)).
under eq_bigr => t _ do rewrite mE.
by rewrite mean_qf mulVmx // mxtrace1.
Qed.
Print Assumptions C82_mahalanobis_averages_dim_z.

Transparent kf_update kf_update_correlated.
(** The history of C70_applies meets the hypotheses, at the start, after its predict and after its missing measurement. *)
Example C82_applies : [/\ probability fair, inv_exact exb, kf_alpha_sq exb = 1 :> rat,
    starts fair exb (fun k => @eq 'M[rat]_k) ex_history ex_start & white fair (fun k => @eq 'M[rat]_k) exb ex_history] /\
  (forall t, all_ok (calls exb t ex_history (ex_start t)) exb) /\
  forall k t, k \in [:: 0; 1; 2]%N -> pd (P_at exb ex_history ex_start k t).
Proof.
have [h1 h2 h3 h4 [h5 h6]] := C70_applies; do 2!split=> //.
have p1 : pd (1%:M : 'M[rat]_1) by exact: pd1.
have p2 : pd (1 *: (1%:M *m 1%:M *m 1%:M^T) + 1%:M : 'M[rat]_1).
  rewrite trmx1 !mulmx1 scale1r; apply: psd_unit_pd; first by apply: psdD; exact: pd_psd.
  by rewrite -raddfD unitmxE det_scalar.
by move=> k t; rewrite !inE => /or3P [] /eqP ->; [exact p1|exact p2|exact p2].
Qed.
