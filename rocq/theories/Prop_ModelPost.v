(** * C81: MMAEFilterBank on KalmanFilters is Bayesian model selection on the whole record. *)
From mathcomp Require Import all_ssreflect all_algebra.
From Verif Require Import Ops Exact Spec ZmodTac LinAlg Model_KF Spec_KF Spec_KF_exact Spec_Stat Spec_Joint
  Proof_KF Proof_KF_exact Model_MM Spec_MM Prop_MM Prop_MMAE Prop_Joint.
From Verif Require RealField.
Set Implicit Arguments.
Unset Strict Implicit.
Unset Printing Implicit Defensive.
Import Order.TTheory GRing.Theory Num.Theory.
Local Open Scope ring_scope.

Section Caches.
Variables (o : nops) (n m l : nat) (lpdf : M o m 1 -> M o m 1 -> M o m m -> sc o) (fmin : sc o).
Notation kf := (kf o n m l).
Lemma clear_id (s : kf) : kf_mahal s = None -> kf_lik s = None -> kf_loglik s = None -> clear_caches s = s.
Proof.
case: s => x1 x2 x3 x4 x5 x6 x7 x8 x9 x10 x11 x12 x13 x14 x15 x16 x17 x18 ll lk mh iv.
cbn [kf_mahal kf_lik kf_loglik] => -> -> ->; reflexivity.
Qed.
Lemma clear_idem (s : kf) : clear_caches (clear_caches s) = clear_caches s.
Proof. apply: clear_id; reflexivity. Qed.
Transparent kf_update.
Lemma update_clear z R H (s : kf) : kf_update z R H (clear_caches s) = kf_update z R H s.
Proof. by rewrite /kf_update clear_idem. Qed.
Lemma clear_update z R H (s : kf) : clear_caches (fst (kf_update (Some z) R H s)) = fst (kf_update (Some z) R H s).
Proof.
apply: clear_id; rewrite /kf_update; lazy zeta; case: (kf_inv _ _) => [SI|]; reflexivity.
Qed.
Opaque kf_update.
Lemma clear_predict u B A Q (s : kf) : clear_caches (kf_predict u B A Q s) = kf_predict u B A Q (clear_caches s).
Proof. case: s => *; reflexivity. Qed.
Lemma clear_lik (s : kf) : clear_caches (snd (kf_likelihood lpdf fmin s)) = clear_caches s.
Proof.
case: s => x1 x2 x3 x4 x5 x6 x7 x8 x9 x10 x11 x12 x13 x14 x15 x16 x17 x18 ll lk mh iv.
rewrite /kf_likelihood /kf_log_likelihood; case: lk => [v|]; first by reflexivity.
case: ll => [v|]; reflexivity.
Qed.
End Caches.

Lemma update_all_ok (o : nops) (n m l : nat) (T : Type) (D : filt o n m l T) (d : T) (N : nat) z R H i (fs : list T) (p : M o 1 N) :
  (forall j, (j < size fs)%N -> snd (f_update D z R H (nth d fs j)) = None) -> snd (mmae_update_all D z R H i fs p) = None.
Proof.
elim: fs i p => [|f fs IH] i p // h /=; have := h 0%N isT; rewrite [nth _ _ _]/=.
case: (f_update D z R H f) => f' e' /= ->; case: (f_lik D f') => L f''.
set q := (X in mmae_update_all _ _ _ _ _ _ X); have := IH i.+1 q (fun j hj => h j.+1 hj).
by case: (mmae_update_all _ _ _ _ _ _ _) => [[r p2] e2].
Qed.

Opaque kf_predict kf_likelihood clear_caches.
Section Bank.
Variable F : realFieldType.
Variables (fsqrt fexp flog : F -> F).
Notation EO := (exactO fsqrt fexp flog).
Variables n m l : nat.
Notation kf := (kf EO n m l).
Notation obs := (obs fsqrt fexp flog n m l unit).
Variables (lpdf : 'cV[F]_m -> 'cV[F]_m -> 'M[F]_m -> F) (fmin : F).
Notation D := (@kf_filt EO n m l lpdf fmin).
Notation lik := (fun s => fst (kf_likelihood (o := EO) lpdf fmin s) : F).

(** What the bank's calls are for each of its filters; [H] is the bank's H. *)
Definition bank_obs (H : option 'M[F]_(m, n)) (c : mmae_call EO n m l) : obs :=
  match c with
  | APredict u => @OPredict F fsqrt fexp flog n m l unit u None None None
  | AUpdate (Some z) R H' => @OMeasure F fsqrt fexp flog n m l unit (fun=> z) R (if H' is None then H else H')
  | AUpdate None R H' => @OMissing F fsqrt fexp flog n m l unit R (if H' is None then H else H')
  end.
(** Every update has a measurement (after a missing one the bank counts the last likelihood twice, C30). *)
Definition measured (c : mmae_call EO n m l) : bool := if c is AUpdate None _ _ then false else true.

Lemma run_cons k ks (f : kf) : kf_run (k :: ks) f = kf_run ks (fst (kf_step k f)).
Proof. reflexivity. Qed.
Lemma step_pred u (f : kf) H : kf_step (call_of tt (bank_obs H (APredict n m u))) f = (kf_predict u None None None f, None).
Proof. reflexivity. Qed.
Lemma step_upd z R H H' (f : kf) :
  kf_step (call_of tt (bank_obs H (AUpdate l (Some z) R H'))) f = kf_update (Some z) R (if H' is None then H else H') f.
Proof. reflexivity. Qed.
Lemma reads_pred u H ks (f : kf) : reads lik (call_of tt (bank_obs H (APredict n m u)) :: ks) f = reads lik ks (kf_predict u None None None f).
Proof. reflexivity. Qed.
Lemma reads_upd z R H H' ks (f : kf) :
  let f1 := fst (kf_update (Some z) R (if H' is None then H else H') f) in
  reads lik (call_of tt (bank_obs H (AUpdate l (Some z) R H')) :: ks) f = lik f1 :: reads lik ks f1.
Proof. reflexivity. Qed.
Lemma alone_pred u H (f : kf) a : alone_step D H (APredict n m u) (f, a) = (kf_predict u None None None f, a).
Proof. reflexivity. Qed.
Lemma alone_upd z R H H' (f : kf) a :
  let f1 := fst (kf_update (Some z) R (if H' is None then H else H') f) in
  alone_step D H (AUpdate l (Some z) R H') (f, a) = (snd (kf_likelihood (o := EO) lpdf fmin f1), a * lik f1).
Proof. reflexivity. Qed.

Lemma alone_reads H cs (f : kf) a : all measured cs ->
  let ks := List.map (call_of tt) (List.map (bank_obs H) cs) in
  let r := foldl (fun p c => alone_step D H c p) (f, a) cs in
  clear_caches (fst r) = kf_run ks (clear_caches f) /\ snd r = a * \prod_(v <- reads lik ks (clear_caches f)) v.
Proof.
elim: cs f a => [|c cs IH] f a; first by move=> _; split=> //; rewrite /= big_nil mulr1.
case/andP=> [hc hcs].
rewrite [List.map (bank_obs H) _]/= [List.map (call_of tt) _]/= [foldl _ _ _]/=; lazy zeta.
move: (IH) => {IH}; move: (List.map (call_of tt) _) (foldl _) => ks fo IH; lazy zeta in IH.
case: c hc => [u|[z|] R H'] // _.
- have := IH (kf_predict u None None None f) a hcs.
  by rewrite alone_pred run_cons step_pred reads_pred clear_predict.
- rewrite alone_upd; lazy zeta; set f1 := fst (kf_update _ _ _ f).
  have := IH (snd (kf_likelihood (o := EO) lpdf fmin f1)) (a * lik f1) hcs.
  by rewrite run_cons step_upd reads_upd; lazy zeta; rewrite update_clear clear_lik clear_update -/f1 big_cons mulrA.
Qed.

Transparent clear_caches.
Lemma joint_clear (os : list obs) (f : kf) j : joint_run (clear_caches f) os j = joint_run f os j.
Proof. by elim: os j => [|c os IH] j //=; rewrite IH; case: c. Qed.
Lemma start_clear (f : kf) : joint_start unit (clear_caches f) = joint_start unit f.
Proof. by []. Qed.
Lemma clear_x (f : kf) : kf_x (clear_caches f) = kf_x f. Proof. by []. Qed.
Lemma clear_P (f : kf) : kf_P (clear_caches f) = kf_P f. Proof. by []. Qed.
Opaque clear_caches.

(** The record itself: what was measured, in order.  It is the same for all the filters. *)
Definition record (j : joint F n unit) : {k : nat & unit -> 'cV[F]_k} := existT (fun k => unit -> 'cV[F]_k) (j_k j) (j_z j).
Lemma record_run (os : list obs) (f g : kf) jf jg : record jf = record jg ->
  record (joint_run f os jf) = record (joint_run g os jg).
Proof.
elim: os jf jg => [|c os IH] jf jg E //; apply: IH; case: c => [u B A Q|z R H|R H] //.
case: jf jg E => [k1 a1 b1 c1 d1 e1 z1] [k2 a2 b2 c2 d2 e2 z2] E.
pose G (w : {k : nat & unit -> 'cV[F]_k}) : {k : nat & unit -> 'cV[F]_k} :=
  existT (fun k => unit -> 'cV[F]_k) (projT1 w + m)%N (fun t => col_mx (projT2 w t) (z t)).
exact: (congr1 G E).
Qed.

Variables (N : nat) (d : kf).
Lemma predict_allE u (fs : list kf) : mmae_predict_all D u fs = (map (kf_predict u None None None) fs, None).
Proof. by elim: fs => [|f fs IHf] //=; rewrite IHf. Qed.
Lemma step_filters u (s : mmae EO n m kf N) : exists s1, mmae_step D (APredict n m u) s = (s1, None) /\
  [/\ a_filters s1 = map (kf_predict u None None None) (a_filters s), a_H s1 = a_H s & a_p s1 = a_p s].
Proof. by rewrite /mmae_step /mmae_predict predict_allE; eexists. Qed.

Lemma all_ok_cons k ks (f : kf) : all_ok (k :: ks) f = (snd (kf_step k f) = None /\ all_ok ks (fst (kf_step k f))).
Proof. by []. Qed.
Lemma run_c_cons c cs (s : mmae EO n m kf N) :
  mmae_run D (c :: cs) s = if mmae_step D c s is (s1, None) then mmae_run D cs s1 else None.
Proof. by []. Qed.
Lemma bank_ok cs (s s' : mmae EO n m kf N) : size (a_filters s) = N -> all measured cs -> mmae_run D cs s = Some s' ->
  forall j : 'I_N, all_ok (List.map (call_of tt) (List.map (bank_obs (a_H s)) cs)) (clear_caches (nth d (a_filters s) j)).
Proof.
elim: cs s => [|c cs IH] s sN // /andP [hc hcs].
rewrite run_c_cons; case E: (mmae_step D c s) => [s1 [e|]] // run j.
rewrite [List.map (bank_obs _) _]/= [List.map (call_of tt) _]/=.
case: c hc E => [u|[z|] R H'] // _ E.
- have [s2 [E2 [f1 H1 _]]] := step_filters u s; move: E2 f1 H1; rewrite E => -[<-] f1 H1.
  have s1N : size (a_filters s1) = N by rewrite f1 size_map.
  have h := IH s1 s1N hcs run j; rewrite f1 H1 (nth_map d) ?sN // in h.
- have [s1N h2 _ _ [H1 _ _ _]] := C30_update d sN E.
  have [up nx] := h2 j; have := IH s1 s1N hcs run j; rewrite nx H1 clear_lik.
  move: up; cbn [f_update kf_filt]; set H0 := match H' with Some _ => _ | None => _ end => up.
  rewrite clear_update => h; rewrite all_ok_cons step_upd update_clear -/H0; split; [by rewrite up|exact: h].
Qed.

(** Conversely the bank runs when its filters do. *)
Lemma bank_runs cs (s : mmae EO n m kf N) : size (a_filters s) = N -> all measured cs ->
  (forall j : 'I_N, all_ok (List.map (call_of tt) (List.map (bank_obs (a_H s)) cs)) (clear_caches (nth d (a_filters s) j))) ->
  exists s', mmae_run D cs s = Some s'.
Proof.
elim: cs s => [|c cs IH] s sN; first by exists s.
case/andP=> hc hcs; rewrite [List.map (bank_obs _) _]/= [List.map (call_of tt) _]/= => hok; rewrite run_c_cons.
case: c hc hok => [u|[z|] R H'] // _ hok.
- have [s1 [-> [f1 H1 _]]] := step_filters u s; apply: IH => //; first by rewrite f1 size_map.
  move=> j; have := hok j; rewrite all_ok_cons => -[_]; by rewrite step_pred H1 f1 (nth_map d) ?sN // clear_predict.
- case E: (mmae_step D _ s) => [s1 e].
  have e0 : e = None.
    move: E; rewrite /mmae_step /mmae_update; set H0 := match H' with Some _ => _ | None => _ end.
    have up (j : 'I_N) : snd (kf_update (Some z) R H0 (nth d (a_filters s) j)) = None.
      by have := hok j; rewrite all_ok_cons => -[]; rewrite step_upd update_clear.
    have {}up j : (j < size (a_filters s))%N -> snd (kf_update (Some z) R H0 (nth d (a_filters s) j)) = None.
      by move=> hj; have jN : (j < N)%N; [rewrite -sN|exact: (up (Ordinal jN))].
    have := update_all_ok (D := D) 0 (a_p s) up.
    by case: (mmae_update_all _ _ _ _ _ _ _) => [[r p2] e2] /= -> [_ <-].
  rewrite e0 in E *.
  have [s1N h2 _ _ [H1 _ _ _]] := C30_update d sN E; apply: IH => // j.
  have [up nx] := h2 j; have := hok j; rewrite all_ok_cons => -[_]; rewrite nx H1 clear_lik step_upd update_clear.
  by cbn [f_update kf_filt]; rewrite clear_update.
Qed.
End Bank.

Transparent clear_caches.
Definition good n m l (f : kf RE n m l) : Prop :=
  [/\ psd (kf_P f : 'M[Rf]_n), psd (kf_Q f : 'M[Rf]_n), psd (kf_R f : 'M[Rf]_m), kf_alpha_sq f = 1 :> Rf & inv_exact f].
Lemma good_clear n m l (f : kf RE n m l) : good f -> good (clear_caches f).
Proof. by case. Qed.
Opaque clear_caches.

(** ** C81.  A bank of [N] KalmanFilters is a finite set of hypotheses about how the measurements arise.  After any history
    of predicts and updates in which every update had a measurement, the bank's p is Bayes' rule applied once to the
    whole record: the initial p times the density, under each filter's model, of all the measurements together,
    normalised.  Each filter's x and P are the conditional mean and covariance under its own hypothesis.  The record is
    the same for all of them. *)
Theorem C81_posterior_of_models : forall (n m l N : nat) (d f0 : kf RE n m l) (fs : list (kf RE n m l)) (p : 'rV[Rf]_N) H z
    (fmin : Rf) (cs : list (mmae_call RE n m l)) s',
  0 < fmin -> prob p -> size fs = N -> (forall j : 'I_N, good (nth d fs j)) ->
  List.Forall (@psd_obs Rf _ _ _ n m l unit) (List.map (bank_obs H) cs) -> all (@measured Rf _ _ _ n m l) cs ->
  let D := @kf_filt RE n m l (@real_lpdf m) fmin in
  mmae_run D cs (mmae_init D f0 fs (p : M RE 1 N) H z) = Some s' ->
  let J (j : 'I_N) := joint_run (nth d fs j) (List.map (bank_obs H) cs) (joint_start unit (nth d fs j)) in
  let L j : Rf := Reals.Rtrigo_def.exp (real_lpdf (j_z (J j) tt) (j_mz (J j)) (j_V (J j))) in
  let p' : 'rV[Rf]_N := a_p s' in
  [/\ forall j, p' 0 j = p 0 j * L j / \sum_k p 0 k * L k, prob p',
      forall j : 'I_N, let f' := nth d (a_filters s') j in
        [/\ j_V (J j) \in unitmx,
            kf_x f' = j_mx (J j) + j_C (J j) *m invmx (j_V (J j)) *m (j_z (J j) tt - j_mz (J j)) &
            kf_P f' = j_Px (J j) - j_C (J j) *m invmx (j_V (J j)) *m (j_C (J j))^T] &
      forall j k, record (J j) = record (J k)].
Proof.
move=> n m l N d f0 fs p H z fmin cs s' hf hp sN hg hos hm D run J L p'.
have e0 (x : Rf) : 0 <= (Reals.Rtrigo_def.exp x : Rf) by apply/RealField.R_leP/Reals.RIneq.Rlt_le/Reals.Exp_prop.exp_pos.
have hL : all_likelihoods_positive D by exact: C30_kalman_filters_qualify.
have [_ hn _ pE pp] := C30_probabilities d hL hp sN run.
have ok := @bank_ok Rf _ _ _ n m l _ fmin N d cs (mmae_init D f0 fs (p : M RE 1 N) H z) s' sN hm run.
rewrite [a_H _]/= [a_filters _]/= in ok.
have al (j : 'I_N) := alone_reads (@real_lpdf m) fmin H (nth d fs j) 1 hm.
have sE (j : 'I_N) : snd (alone D H cs (nth d fs j)) = L j.
  have [_ ->] := al j; rewrite mul1r; have [h1 h2 h3 h4 h5] := good_clear (hg j).
  have [_ h _] := C78_likelihood_real fmin h1 h2 h3 h4 h5 hos (ok j).
  by rewrite joint_clear start_clear in h.
split=> //.
- move=> j; rewrite pE sE; congr (_ / _); by apply: eq_bigr => k _; rewrite sE.
- move=> j f'; have [h1 h2 h3 h4 h5] := good_clear (hg j).
  have [a b c] := C78_conditioning h1 h2 h3 h4 h5 hos (ok j).
  have [E _] := al j; rewrite joint_clear start_clear -E clear_x clear_P -[foldl _ _ _]/(alone D H cs (nth d fs j)) -hn in a b c.
  by split.
- by move=> j k; exact: record_run.
Qed.
Print Assumptions C81_posterior_of_models.

Lemma run_rcons (o : nops) (n m l : nat) (T : Type) (D : filt o n m l T) (N : nat) cs c (s s' : mmae o n m T N) :
  mmae_run D (rcons cs c) s = Some s' -> exists s1, mmae_run D cs s = Some s1 /\ mmae_step D c s1 = (s', None).
Proof.
elim: cs s => [|b cs IH] s /=; last by case: (mmae_step D b s) => [s1 [e|]] // /IH.
by case E: (mmae_step D c s) => [s1 [e|]] // [<-]; exists s.
Qed.

(** After an update the bank's x is the mean of the state given the record, with the model unknown: the conditional
    means weighted by the posterior probabilities of their models. *)
Theorem C81_mean_over_models : forall (n m l N : nat) (d f0 : kf RE n m l) (fs : list (kf RE n m l)) (p : 'rV[Rf]_N) H z
    (fmin : Rf) (cs0 : list (mmae_call RE n m l)) z1 R1 H1 s',
  0 < fmin -> prob p -> size fs = N -> (forall j : 'I_N, good (nth d fs j)) ->
  let cs := rcons cs0 (AUpdate l (Some z1) R1 H1) in
  List.Forall (@psd_obs Rf _ _ _ n m l unit) (List.map (bank_obs H) cs) -> all (@measured Rf _ _ _ n m l) cs ->
  let D := @kf_filt RE n m l (@real_lpdf m) fmin in
  mmae_run D cs (mmae_init D f0 fs (p : M RE 1 N) H z) = Some s' ->
  let J (j : 'I_N) := joint_run (nth d fs j) (List.map (bank_obs H) cs) (joint_start unit (nth d fs j)) in
  let L j : Rf := Reals.Rtrigo_def.exp (real_lpdf (j_z (J j) tt) (j_mz (J j)) (j_V (J j))) in
  a_x s' = (\sum_k p 0 k * L k)^-1 *:
    \sum_j (p 0 j * L j) *: (j_mx (J j) + j_C (J j) *m invmx (j_V (J j)) *m (j_z (J j) tt - j_mz (J j))).
Proof.
move=> n m l N d f0 fs p H z fmin cs0 z1 R1 H1 s' hf hp sN hg cs hos hm D run J L.
have [pE _ hx _] := C81_posterior_of_models hf hp sN hg hos hm run.
have [s1 [run1 st]] := run_rcons run.
have e0 (x : Rf) : 0 <= (Reals.Rtrigo_def.exp x : Rf) by apply/RealField.R_leP/Reals.RIneq.Rlt_le/Reals.Exp_prop.exp_pos.
have hL : all_likelihoods_positive D by exact: C30_kalman_filters_qualify.
have [s1N _ _ _ _] := C30_probabilities d hL hp sN run1.
have [_ _ _ xE _] := C30_update d s1N st.
rewrite xE /mixmean scaler_sumr; apply: eq_bigr => j _; rewrite pE scalerA mulrC [bank_x _ _ _ _]/=.
by have [_ -> _] := hx j.
Qed.
Print Assumptions C81_mean_over_models.

(** Two new filters that differ in Q; they measure 1, predict, and measure 3. *)
Definition ex_f2 : kf RE 1 1 0 := @set_kf_Q RE 1 1 0 (2%:R%:M : 'M[Rf]_1) ex_real.
Definition ex_cs : list (mmae_call RE 1 1 0) :=
  [:: @AUpdate RE 1 1 0 (Some (1%:M : 'M[Rf]_1)) None None; @APredict RE 1 1 0 None; @AUpdate RE 1 1 0 (Some (3%:R%:M : 'M[Rf]_1)) None None].
Definition ex_p : 'rV[Rf]_2 := \row_j (2%:R)^-1.
Example C81_applies : let fs := [:: ex_real; ex_f2] in let D := @kf_filt RE 1 1 0 (@real_lpdf 1) (1 : Rf) in
  [/\ prob ex_p, size fs = 2%N, forall j : 'I_2, good (nth ex_real fs j), all (@measured Rf _ _ _ 1 1 0) ex_cs &
      [/\ List.Forall (@psd_obs Rf _ _ _ 1 1 0 unit) (List.map (bank_obs None) ex_cs),
          exists s', mmae_run D ex_cs (mmae_init D ex_real fs (ex_p : M RE 1 2) None None) = Some s' &
          kf_Q ex_f2 - kf_Q ex_real = 1%:M :> 'M[Rf]_1]].
Proof.
move=> fs D.
have p1 : psd (1%:M : 'M[Rf]_1) by exact: psd1.
have p1d : pd (1%:M : 'M[Rf]_1) by exact: pd1.
have p2 : psd (2%:R%:M : 'M[Rf]_1).
  by have := psdD p1 p1; rewrite -raddfD.
have hg (j : 'I_2) : good (nth ex_real fs j).
  by case: j => [[|[|j]] hj] //; split.
have hos : List.Forall (@psd_obs Rf Reals.R_sqrt.sqrt Reals.Rtrigo_def.exp Reals.Rpower.ln 1 1 0 unit) (List.map (bank_obs None) ex_cs).
  by do !constructor.
split=> //.
- split=> [j|]; first by rewrite mxE invr_ge0 ler0n.
  by rewrite !big_ord_recl big_ord0 !mxE addr0 -mulr2n -[X in X = _]mulr_natr mulVf // pnatr_eq0.
split=> //.
- apply: (@bank_runs Rf _ _ _ 1 1 0 _ _ 2 ex_real) => // j; rewrite [a_H _]/= [a_filters _]/=.
  have [h1 h2 h3 h4 h5] := good_clear (hg j).
  apply: (@definite_ok Rf _ _ _ 1 1 0 unit (clear_caches (nth ex_real fs j)) tt _ h2 h3 hos); last exact: track_start.
  by case: j {h1 h2 h3 h4 h5} => [[|[|j]] hj] //; repeat first [exact: List.Forall_nil | apply: List.Forall_cons; first exact p1d || exact I].
- by apply/matrixP => a b; rewrite !mxE !ord1 addrK.
Qed.
