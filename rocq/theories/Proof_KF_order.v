(** * Monotonicity, scaling and superposition of KalmanFilter runs. *)
From mathcomp Require Import all_ssreflect all_algebra.
From Verif Require Import Ops Exact Spec ZmodTac LinAlg Model_KF Spec_KF Spec_KF_exact Spec_KF_order
  Proof_KF Proof_KF_exact.
Set Implicit Arguments.
Unset Strict Implicit.
Unset Printing Implicit Defensive.
Import Order.TTheory GRing.Theory Num.Theory.
Local Open Scope ring_scope.

Arguments joseph : simpl never.
Arguments mslice : simpl never.
Arguments mwrite : simpl never.
Ltac exo := cbv beta iota delta [mdot madd msub mscale mtr meye mzeros mget exactO exactS so M sc smul sdiv s1 s0 sltb].
Section Order.
Variable F : realFieldType.
Variables (fsqrt fexp flog : F -> F).
Notation EO := (exactO fsqrt fexp flog).

Lemma mleD p (A B C D : 'M[F]_p) : mle A B -> mle C D -> mle (A + C) (B + D).
Proof. by rewrite /mle => h1 h2; have := psdD h1 h2; congr psd; zmod. Qed.

Lemma mle_psd p (A B : 'M[F]_p) : psd A -> mle A B -> psd B.
Proof. by move=> h1 h2; have := psdD h1 h2; congr psd; zmod. Qed.

Lemma mle_congr p q (A B : 'M[F]_p) (C : 'M[F]_(q,p)) : mle A B -> mle (C *m A *m C^T) (C *m B *m C^T).
Proof. by move=> h; have := psd_congr C h; rewrite /mle; congr psd; mxring. Qed.

Lemma mleZ p (A B : 'M[F]_p) x y : 0 <= x -> x <= y -> psd A -> mle A B -> mle (x *: A) (y *: B).
Proof.
move=> x0 xy pA h; rewrite /mle.
have -> : y *: B - x *: A = (y - x) *: A + y *: (B - A).
  by rewrite scalerBl scalerBr; zmod.
by apply: psdD; apply: psdZ => //; rewrite ?subr_ge0 // (le_trans x0).
Qed.

Section Upd.
Variables (n m : nat) (P P' : 'M[F]_n) (H : 'M[F]_(m,n)) (R R' : 'M[F]_m).
Hypotheses (pP : psd P) (pR : psd R) (hP : mle P P') (hR : mle R R').
Hypothesis uS : Smx P H R \in unitmx.

Lemma Smx_mono : mle (Smx P H R) (Smx P' H R').
Proof. by rewrite /Smx !mulmxA; apply: mleD => //; apply: mle_congr. Qed.

Lemma Smx_unit : Smx P' H R' \in unitmx.
Proof.
apply: pd_unit; have := pdD (psd_unit_pd (psd_Smx H pP pR) uS) Smx_mono.
by rewrite addrC subrK.
Qed.

Lemma Jmx_mono : mle (Jmx P H R (Kmx P H R)) (Jmx P' H R' (Kmx P' H R')).
Proof.
apply: mle_trans (Jmx_opt (Kmx P' H R') pP pR uS) _.
by rewrite /Jmx; apply: mleD; apply: mle_congr.
Qed.
End Upd.

Section Filter.
Variables n m l : nat.
Notation kf := (kf EO n m l).
Notation kf_call := (kf_call EO n m l).

Lemma sm_or_mono k (d d' : 'M[F]_k) a a' : mle d d' -> noise_le a a' ->
  mle (sm_or (o := EO) d a : 'M[F]_k) (sm_or (o := EO) d' a' : 'M[F]_k).
Proof. by case: a => [[q|A]|]; case: a' => [[q'|A']|]. Qed.

Definition both_ok (s t : kf) : Prop :=
  [/\ kf_good s, inv_exact s, inv_exact t, worse_cfg s t & worse_cov s t].

Lemma step_mono (c d : kf_call) (s t : kf) : both_ok s t -> psd_call c -> worse_call c d ->
  snd (kf_step c s) = None ->
  both_ok (fst (kf_step c s)) (fst (kf_step d t)) /\ snd (kf_step d t) = None.
Proof.
case=> hg hi hj hcfg hcov hc hd; have hg' := step_psd hc hg.
suff h : snd (kf_step c s) = None -> [/\ inv_exact (fst (kf_step c s)), inv_exact (fst (kf_step d t)),
    worse_cfg (fst (kf_step c s)) (fst (kf_step d t)), worse_cov (fst (kf_step c s)) (fst (kf_step d t))
    & snd (kf_step d t) = None].
  by move=> /h [? ? ? ? ?].
clear hg'; move: hg hi hj hcfg hcov.
case: s => x P Q B A H R al Mm z K y S SI xp Pp xo Po ll lk mh iv.
case: t => x' P' Q' B' A' H' R' al' Mm' z' K' y' S' SI' xp' Pp' xo' Po' ll' lk' mh' iv'.
rewrite /kf_good /worse_cfg /worse_cov /inv_exact /=.
case=> pP pPr pPo pQ [pR pa] hi hj [eA eH hQ hR ha] [hP hPr hPo]; subst A' H'.
case: c hc hd => //=.
- move=> u B1 A1 Q1 pq; case: d => // u' B2 A2 Q2 [<- hq] _ /=; split=> //.
  set A0 := opt_or A A1.
  have hh : mle (al *: (A0 *m P *m A0^T) + sm_or (o := EO) Q Q1) (al' *: (A0 *m P' *m A0^T) + sm_or (o := EO) Q' Q2).
    apply: mleD; last exact: sm_or_mono.
    by apply: mleZ => //; [apply: psd_congr | apply: mle_congr].
  by split.
- case=> [z1|] R1 H1 pr; case: d => // z2 R2 H2 [hz <- hr]; last first.
    by rewrite (hz erefl) /= => _; split.
  kf_compute; exo; rewrite hi /mx_inv.
  set H0 := opt_or H H1; set R0 := sm_or _ R1.
  have pR0 : psd (R0 : 'M[F]_m) by apply: psd_sm_or.
  have -> : H0 *m (P *m H0^T) + R0 = Smx P H0 R0 by [].
  case: ifP => uS //= _; case: z2 hz => [z2|] _ /=; last first.
    have hle : mle (joseph (o := EO) P (P *m H0^T *m invmx (Smx P H0 R0)) H0 R0) P'.
      by apply: mle_trans hP; rewrite josephE; apply: Jmx_le.
    by split.
  exo; rewrite hj /mx_inv; set R0' := sm_or _ R2.
  have hR0 : mle (R0 : 'M[F]_m) R0' by apply: sm_or_mono.
  have -> : H0 *m (P' *m H0^T) + R0' = Smx P' H0 R0' by [].
  rewrite (Smx_unit pP pR0 hP hR0 uS) /=.
  have hle := Jmx_mono pP pR0 hP hR0 uS.
  by split.
Qed.

Lemma run_mono (cs ds : list kf_call) (s t : kf) : both_ok s t ->
  List.Forall (@psd_call F fsqrt fexp flog n m l) cs ->
  List.Forall2 (@worse_call F fsqrt fexp flog n m l) cs ds -> all_ok cs s ->
  both_ok (kf_run cs s) (kf_run ds t) /\ all_ok ds t.
Proof.
move=> h hc hf; elim: hf s t h hc => [|c d cs' ds' hcd _ IH] s t h hc hok //.
case: hok => hok1 hok2; inversion hc; subst.
have [h1 h2] := step_mono h H1 hcd hok1.
have [h3 h4] := IH _ _ h1 H2 hok2.
by split.
Qed.

(** ** Scaling *)
Section Scale.
Variable c : F.
Hypothesis c0 : c != 0.
Local Notation scall := (@scaled_call F fsqrt fexp flog n m l c).

Lemma scZ : c^-1 * c = 1. Proof. by rewrite mulVf. Qed.

Lemma mx_invZ k (A : 'M[F]_k) : mx_inv (c *: A) = option_map (fun B : 'M[F]_k => c^-1 *: B) (mx_inv A).
Proof.
rewrite /mx_inv unitmxZ ?unitfE //; case: ifP => //= uA.
by rewrite invmxZ // unitmxZ ?unitfE.
Qed.

Lemma sm_or_scaled k (d : 'M[F]_k) a : sm_or (o := EO) (c *: d) (scaled_arg c a) = c *: (sm_or (o := EO) d a : 'M[F]_k).
Proof. by case: a => [[q|A]|] //=; rewrite scalerA. Qed.

Lemma sPHT p q (P : 'M[F]_n) (G : 'M[F]_(n,p)) (SI : 'M[F]_(p,q)) : (c *: P *m G) *m (c^-1 *: SI) = P *m G *m SI.
Proof. by rewrite -!scalemxAl -scalemxAr scalerA mulfV // scale1r. Qed.

Lemma sJ k (P : 'M[F]_n) (K : 'M[F]_(n,k)) H (R : 'M[F]_k) :
  joseph (o := EO) (c *: P) K H (c *: R) = c *: (joseph (o := EO) P K H R : 'M[F]_n).
Proof. by rewrite !josephE /Jmx scalerDr -!scalemxAr -!scalemxAl. Qed.

Lemma sS k (P : 'M[F]_n) (H : 'M[F]_(k,n)) (R : 'M[F]_k) :
  H *m (c *: P *m H^T) + c *: R = c *: (H *m (P *m H^T) + R).
Proof. by rewrite scalerDr -scalemxAl -scalemxAr. Qed.

Lemma sslice (R : 'M[F]_m) a b k k' : mslice (o := EO) (c *: R) a b k k' = c *: (mslice (o := EO) R a b k k' : 'M[F]_(k,k')).
Proof.
apply/matrixP => i j; rewrite !mxE /= /mx_get.
by case: insub => [i'|]; [case: insub => [j'|]|]; rewrite ?mxE ?mulr0.
Qed.

Lemma step_scaled (k : kf_call) (s t : kf) : inv_exact s -> inv_exact t -> seq_inv_exact k -> scaled c s t ->
  [/\ scaled c (fst (kf_step k s)) (fst (kf_step (scall k) t)), snd (kf_step k s) = snd (kf_step (scall k) t),
     inv_exact (fst (kf_step k s)) & inv_exact (fst (kf_step (scall k) t))].
Proof.
case: s => x P Q B A H R al Mm z K y S SI xp Pp xo Po ll lk mh iv.
case: t => x' P' Q' B' A' H' R' al' Mm' z' K' y' S' SI' xp' Pp' xo' Po' ll' lk' mh' iv'.
rewrite /scaled /inv_exact /= => hi hj hk.
case=> [[-> -> -> -> ->] [[-> -> ->] [[-> -> -> -> ->] [-> -> -> ->]]]].
clear x' P' Q' B' A' H' R' al' Mm' K' y' S' SI' xp' Pp' xo' Po'.
case: k hk => /=.
- move=> u B1 A1 Q1 _; kf_compute; exo; rewrite sm_or_scaled.
  have -> (X : 'M[F]_n) Y : al *: (X *m (c *: P) *m X^T) + c *: Y = c *: (al *: (X *m P *m X^T) + Y).
    by rewrite scalerDr -scalemxAr -scalemxAl !scalerA mulrC.
  by do !split.
- case=> [z1|] R1 H1 _; last by do !split.
  kf_compute; exo; rewrite sm_or_scaled sS hi hj mx_invZ.
  case: (mx_inv _) => [si|] /=; last by do !split.
  by rewrite sPHT sJ; do !split.
- by move=> u B1 _; do !split.
- by case=> [z1|] _; do !split.
- case=> [z1|] R1 H1 _; last by do !split.
  kf_compute; exo; rewrite sm_or_scaled.
  set H0 := opt_or H H1; set R0 := sm_or _ R1.
  have -> : H0 *m (c *: P *m H0^T) + H0 *m (c *: Mm) + (c *: Mm)^T *m H0^T + c *: R0 =
    c *: (H0 *m (P *m H0^T) + H0 *m Mm + Mm^T *m H0^T + R0).
    by rewrite !scalerDr [(_ *: Mm)^T]linearZ /= -!scalemxAl -!scalemxAr.
  rewrite hi hj mx_invZ.
  case: (mx_inv _) => [si|] /=; last by do !split.
  have -> : (c *: P *m H0^T + c *: Mm) *m (c^-1 *: si) = (P *m H0^T + Mm) *m si.
    by rewrite -scalemxAl -scalerDr -scalemxAl -scalemxAr scalerA mulfV // scale1r.
  have -> : c *: P - (P *m H0^T + Mm) *m si *m (H0 *m (c *: P) + (c *: Mm)^T) =
     c *: (P - (P *m H0^T + Mm) *m si *m (H0 *m P + Mm^T)).
    by rewrite [(_ *: Mm)^T]linearZ /= -scalemxAr -scalerDr -scalemxAr scalerBr.
  by do !split.
- move=> k linv start z1 R1 H1 hl; kf_compute; exo.
  case: (PeanoNat.Nat.leb _ _) => /=; last by do !split.
  rewrite sslice sm_or_scaled sS.
  set H0 := opt_or _ H1; set R0 := sm_or _ R1.
  case: (PeanoNat.Nat.eqb k 1) => /=.
    have -> : 1 / mx_get (c *: (H0 *m (P *m H0^T) + R0)) 0 0 *: (c *: P *m H0^T) =
       1 / mx_get (H0 *m (P *m H0^T) + R0) 0 0 *: (P *m H0^T).
      have -> (p q : nat) (X : 'M[F]_(p,q)) : mx_get (c *: X) 0 0 = c * mx_get X 0 0.
        rewrite /mx_get; case: insub => [i'|]; [case: insub => [j'|]|]; by rewrite ?mxE ?mulr0.
      rewrite -scalemxAl scalerA; congr (_ *: _).
      by rewrite !mul1r invfM mulrAC mulVf // mul1r.
    by rewrite sJ; do !split.
  rewrite !hl mx_invZ; case: (mx_inv _) => [si|] /=; last by do !split.
  by rewrite sPHT sJ; do !split.
- move=> lp _; rewrite /kf_log_likelihood /=.
  by case: ll => [v|]; case: ll' => [v'|] /=; do !split.
- move=> lp fm _; rewrite /kf_likelihood /kf_log_likelihood /=.
  by case: lk => [v|]; case: lk' => [v'|] /=; case: ll => [w|]; case: ll' => [w'|] /=; do !split.
- rewrite /kf_mahalanobis /=.
  by case: mh => [v|]; case: mh' => [v'|] /=; do !split.
- case=> [a|] /=; last by do !split.
  by case: ifP => _ /=; do !split.
Qed.

Lemma run_scaled (ks : list kf_call) (s t : kf) : inv_exact s -> inv_exact t ->
  List.Forall (@seq_inv_exact F fsqrt fexp flog n m l) ks -> scaled c s t ->
  scaled c (kf_run ks s) (kf_run (List.map scall ks) t) /\ (all_ok ks s <-> all_ok (List.map scall ks) t).
Proof.
move=> hi hj hf; elim: hf s t hi hj => [|k ks' hk _ IH] s t hi hj h //.
have [h1 h2 h3 h4] := step_scaled hi hj hk h.
have [h5 h6] := IH _ _ h3 h4 h1; split; first exact: h5.
by split; case=> e1 e2; split; [rewrite -h2|apply/h6|rewrite h2|apply/h6].
Qed.
End Scale.
End Filter.
End Order.
