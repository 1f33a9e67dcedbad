(** * Forgetting the initial conditions: proofs. *)
From mathcomp Require Import all_ssreflect all_algebra.
From Verif Require Import Ops Exact Spec ZmodTac LinAlg Model_KF Spec_KF Spec_KF_exact Spec_KF_order Spec_KF_forget
  Proof_KF Proof_KF_exact Proof_KF_order.
Set Implicit Arguments.
Unset Strict Implicit.
Unset Printing Implicit Defensive.
Import Order.TTheory GRing.Theory Num.Theory.
Local Open Scope ring_scope.

Arguments joseph : simpl never.
Section Forget.
Variable F : realFieldType.
Variables (fsqrt fexp flog : F -> F).
Notation EO := (exactO fsqrt fexp flog).
Variables n m l : nat.
Notation kf := (kf EO n m l).
Notation kf_call := (kf_call EO n m l).
Variable d : F.

Lemma mleZl p c (A B : 'M[F]_p) : 0 <= c -> mle A B -> mle (c *: A) (c *: B).
Proof. by move=> c0 h; rewrite /mle -scalerBr; apply: psdZ. Qed.

Lemma used_QE (s : kf) Q : used_Q s Q = sm_or (o := EO) (kf_Q s) Q.
Proof. by case: Q => [[q|A]|]. Qed.

(** The part of the predicted covariance that comes from the past. *)
Lemma past_le (X Y Q : 'M[F]_n) a : mle (d *: (a *: X + Q)) Q -> Y = a *: X + Q -> mle (a *: X) ((1 - d) *: Y).
Proof. by rewrite /mle => h ->; move: h; congr psd; rewrite scalerBl scale1r; zmod. Qed.

(** ** The estimates *)
Definition near (c : F) (s t : kf) : Prop :=
  [/\ same_model s t, kf_P s = kf_P t, inv_exact s, inv_exact t & kf_good s] /\
  mle ((kf_x t - kf_x s : 'cV[F]_n) *m (kf_x t - kf_x s : 'cV[F]_n)^T) (c *: (kf_P s : 'M[F]_n)).

Lemma control_diff (A : 'M[F]_n) (x x' : 'cV[F]_n) B u :
  (apply_control (o := EO) A x' B u : 'cV[F]_n) - apply_control (o := EO) (l := l) A x B u = A *m (x' - x).
Proof. by case: u => [u|]; case: B => [B|] /=; exo; rewrite mulmxBr; zmod. Qed.

Lemma outer_mul p q (A : 'M[F]_(p,q)) (v : 'cV[F]_q) : (A *m v) *m (A *m v)^T = A *m (v *m v^T) *m A^T.
Proof. by rewrite trmx_mul !mulmxA. Qed.

Definition rate (s : kf) (c : kf_call) : F :=
  match c with CPredict _ _ _ _ => (1 - d) / (kf_alpha_sq s : F) | _ => 1 end.

Lemma near_step (k : kf_call) (c : F) (s t : kf) : near c s t -> psd_call k -> 0 <= c -> 0 < (kf_alpha_sq s : F) ->
  noisy d [:: k] s -> snd (kf_step k s) = None ->
  near (rate s k * c) (fst (kf_step k s)) (fst (kf_step k t)) /\ snd (kf_step k t) = None.
Proof.
move=> hn hc c0 a0 hd hok; have hg' := step_psd hc (let: conj (And5 _ _ _ _ g) _ := hn in g).
suff : [/\ same_model (fst (kf_step k s)) (fst (kf_step k t)), kf_P (fst (kf_step k s)) = kf_P (fst (kf_step k t)),
    inv_exact (fst (kf_step k s)), inv_exact (fst (kf_step k t)) & snd (kf_step k t) = None] /\
    mle ((kf_x (fst (kf_step k t)) - kf_x (fst (kf_step k s)) : 'cV[F]_n) *m (kf_x (fst (kf_step k t)) - kf_x (fst (kf_step k s)) : 'cV[F]_n)^T)
      ((rate s k * c) *: (kf_P (fst (kf_step k s)) : 'M[F]_n)).
  by case=> [[h1 h2 h3 h4 h5] h6].
clear hg'; case: hn => [[hm hP hi hj hg] hx]; move: hm hP hi hj hg hx a0 hd hok.
case: s => x P Q B A H R al Mm z K y S SI xp Pp xo Po ll lk mh iv.
case: t => x' P' Q' B' A' H' R' al' Mm' z' K' y' S' SI' xp' Pp' xo' Po' ll' lk' mh' iv'.
rewrite /kf_good /same_model /inv_exact /rate /=.
move=> [[<- <- <- <- <-] <-] <- hi hj [pP pPr pPo pQ [pR pa]] hx a0.
case: k hc => //=; try by move=> * ; intuition.
- move=> u B1 A1 Q1 pq [hq _] _; split; first by split.
  move: hq; rewrite used_QE /=; exo; rewrite control_diff outer_mul.
  set A0 := opt_or A A1; set Q0 := sm_or _ Q1 => hq.
  apply: mle_trans (mle_congr A0 hx) _.
  have h := past_le hq erefl.
  have -> : A0 *m (c *: P) *m A0^T = (c / al) *: (al *: (A0 *m P *m A0^T)).
    by rewrite -scalemxAr -scalemxAl scalerA divfK // lt0r_neq0.
  rewrite [_ * c]mulrC mulrA -mulrA [(1 - d) / al]mulrC mulrA.
  rewrite -[X in mle _ X]scalerA; apply: mleZl h.
  by rewrite divr_ge0 // ltW.
- case=> [z1|] R1 H1 pr _; last first.
    by rewrite /= mul1r => _; split.
  kf_compute; exo; rewrite hi hj /mx_inv mul1r.
  set H0 := opt_or H H1; set R0 := sm_or _ R1.
  have pR0 : psd (R0 : 'M[F]_m) by apply: psd_sm_or.
  have -> : H0 *m (P *m H0^T) + R0 = Smx P H0 R0 by [].
  case: ifP => uS //= _; split; first by split.
  set G := P *m H0^T *m invmx (Smx P H0 R0).
  have -> : x' + G *m (z1 - H0 *m x') - (x + G *m (z1 - H0 *m x)) = (1%:M - G *m H0) *m (x' - x).
    by rewrite mulmxBl mul1mx !mulmxBr !mulmxA; zmod.
  rewrite outer_mul; apply: mle_trans (mle_congr _ hx) _.
  rewrite josephE /Jmx -scalemxAr -scalemxAl; apply: mleZl => //.
  by rewrite /mle addrC addKr; apply: psd_congr.
Qed.

Lemma keeps_alpha (k : kf_call) (s : kf) : noisy d [:: k] s -> kf_alpha_sq (fst (kf_step k s)) = kf_alpha_sq s.
Proof.
by move=> hd; case: (@step_alpha EO n m l k s) => // -[a [e _]]; case: hd; rewrite e.
Qed.

Lemma near_run (cs : list kf_call) (c : F) (s t : kf) : near c s t ->
  List.Forall (@psd_call F fsqrt fexp flog n m l) cs -> 0 <= c -> d <= 1 -> 0 < (kf_alpha_sq s : F) ->
  noisy d cs s -> all_ok cs s ->
  near (c * ((1 - d) / (kf_alpha_sq s : F)) ^+ predictions cs) (kf_run cs s) (kf_run cs t) /\ all_ok cs t.
Proof.
move=> hn hf; elim: hf c s t hn => [|k ks hk _ IH] c s t hn c0 d1 a0 hd hok; first by rewrite mulr1.
case: hd hok => hd1 hd2 [ok1 ok2].
have hk' : noisy d [:: k] s by [].
have [h1 h2] := near_step hn hk c0 a0 hk' ok1.
have hal := keeps_alpha hk'.
have c0' : 0 <= rate s k * c.
  by rewrite mulr_ge0 // /rate; case: (k) => *; rewrite ?ler01 // divr_ge0 ?subr_ge0 // ltW.
have a0' : 0 < (kf_alpha_sq (fst (kf_step k s)) : F) by rewrite hal.
have [h3 h4] := IH _ _ _ h1 c0' d1 a0' hd2 ok2.
split; last by split.
move: h3; rewrite hal /=.
suff -> : rate s k * c * ((1 - d) / (kf_alpha_sq s : F)) ^+ predictions ks =
  c * ((1 - d) / (kf_alpha_sq s : F)) ^+ predictions (k :: ks) by [].
by rewrite mulrAC mulrC; congr (_ * _); case: (k) hd1 => [? ? ? ?|? ? ?|? ?|?|? ? ?|? ? ? ? ? ?|?|? ?||?] //= _; rewrite ?mul1r // exprS.
Qed.

(** ** The covariances *)
Definition cnear (c : F) (s t : kf) : Prop :=
  [/\ same_model s t, inv_exact s, inv_exact t, kf_good s & kf_good t] /\
  mle (kf_P t : 'M[F]_n) ((1 + c) *: (kf_P s : 'M[F]_n)).

Definition crate (k : kf_call) : F := match k with CPredict _ _ _ _ => 1 - d | _ => 1 end.

Lemma cnear_step (k : kf_call) (c : F) (s t : kf) : cnear c s t -> psd_call k -> 0 <= c ->
  noisy d [:: k] s -> snd (kf_step k s) = None -> snd (kf_step k t) = None ->
  cnear (crate k * c) (fst (kf_step k s)) (fst (kf_step k t)).
Proof.
move=> hn hc c0 hd hok hok'; have hg1 := step_psd hc (let: conj (And5 _ _ _ g _) _ := hn in g).
have hg2 := step_psd hc (let: conj (And5 _ _ _ _ g) _ := hn in g).
suff : [/\ same_model (fst (kf_step k s)) (fst (kf_step k t)),
    inv_exact (fst (kf_step k s)), inv_exact (fst (kf_step k t)) &
    mle (kf_P (fst (kf_step k t)) : 'M[F]_n) ((1 + crate k * c) *: (kf_P (fst (kf_step k s)) : 'M[F]_n))].
  by case=> h1 h2 h3 h4.
clear hg1 hg2; case: hn => [[hm hi hj hg hg'] hP]; move: hm hP hi hj hg hg' hd hok hok'.
case: s => x P Q B A H R al Mm z K y S SI xp Pp xo Po ll lk mh iv.
case: t => x' P' Q' B' A' H' R' al' Mm' z' K' y' S' SI' xp' Pp' xo' Po' ll' lk' mh' iv'.
rewrite /kf_good /same_model /inv_exact /crate /=.
move=> [[<- <- <- <- <-] <-] hP hi hj [pP pPr pPo pQ [pR pa]] [pP' _ _ _ _].
case: k hc => //=; try by move=> * ; intuition.
- move=> u B1 A1 Q1 pq [hq _] _ _; split=> //.
  move: hq; rewrite used_QE /=; exo.
  set A0 := opt_or A A1; set Q0 := sm_or _ Q1 => hq.
  have h := past_le hq erefl.
  apply: (@mle_trans _ _ _ (al *: (A0 *m ((1 + c) *: P) *m A0^T) + Q0)).
    by apply: mleD; [apply: mleZl => //; apply: mle_congr | exact: mle_refl].
  move/(mleZl c0): h; rewrite /mle; congr psd.
  rewrite -scalemxAr -scalemxAl [al *: ((1 + c) *: _)]scalerA [al * _]mulrC -scalerA.
  rewrite [(1 + c) *: _]scalerDl [(1 + (1 - d) * c) *: _]scalerDl !scale1r [c *: ((1 - d) *: _)]scalerA [c * _]mulrC; zmod.
- case=> [z1|] R1 H1 pr _; last by rewrite mul1r => _ _; split.
  kf_compute; exo; rewrite hi hj /mx_inv mul1r.
  set H0 := opt_or H H1; set R0 := sm_or _ R1.
  have pR0 : psd (R0 : 'M[F]_m) by apply: psd_sm_or.
  have -> : H0 *m (P *m H0^T) + R0 = Smx P H0 R0 by [].
  have -> : H0 *m (P' *m H0^T) + R0 = Smx P' H0 R0 by [].
  case: ifP => uS //= _; case: ifP => uS' //= _; split=> //.
  rewrite !josephE.
  apply: mle_trans (Jmx_opt (Kmx P H0 R0) pP' pR0 uS') _.
  rewrite -[P *m _ *m _]/(Kmx P H0 R0) /Jmx scalerDr; set G := Kmx P H0 R0.
  apply: mleD.
    by apply: mle_trans (mle_congr _ hP) _; rewrite -scalemxAr -scalemxAl; exact: mle_refl.
  by rewrite scalerDl scale1r /mle addrAC subrr add0r; apply: psdZ => //; apply: psd_congr.
Qed.

Lemma cnear_run (cs : list kf_call) (c : F) (s t : kf) : cnear c s t ->
  List.Forall (@psd_call F fsqrt fexp flog n m l) cs -> 0 <= c -> d <= 1 ->
  noisy d cs s -> all_ok cs s -> all_ok cs t ->
  cnear (c * (1 - d) ^+ predictions cs) (kf_run cs s) (kf_run cs t).
Proof.
move=> hn hf; elim: hf c s t hn => [|k ks hk _ IH] c s t hn c0 d1 hd hok hok'; first by rewrite mulr1.
case: hd hok hok' => hd1 hd2 [ok1 ok2] [ok1' ok2'].
have hk' : noisy d [:: k] s by [].
have h1 := cnear_step hn hk c0 hk' ok1 ok1'.
have c0' : 0 <= crate k * c.
  by rewrite mulr_ge0 // /crate; case: (k) => *; rewrite ?ler01 // subr_ge0.
have h3 := IH _ _ _ h1 c0' d1 hd2 ok2 ok2'.
move: h3 => /=.
suff -> : crate k * c * (1 - d) ^+ predictions ks = c * (1 - d) ^+ predictions (k :: ks) by [].
by rewrite mulrAC mulrC; congr (_ * _); case: (k) hd1 => [? ? ? ?|? ? ?|? ?|?|? ? ?|? ? ? ? ? ?|?|? ?||?] //= _; rewrite ?mul1r // exprS.
Qed.
End Forget.
