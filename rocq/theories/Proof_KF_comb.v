(** * Superposition of KalmanFilter runs. *)
From mathcomp Require Import all_ssreflect all_algebra.
From Verif Require Import Ops Exact Spec ZmodTac Model_KF Spec_KF Spec_KF_exact Spec_KF_order Proof_KF.
Set Implicit Arguments.
Unset Strict Implicit.
Unset Printing Implicit Defensive.
Import Order.TTheory GRing.Theory Num.Theory.
Local Open Scope ring_scope.

Section Gain.
Variable o : nops.
Variables n m l : nat.
Notation kf := (kf o n m l).

(** The gain of the ordinary and of the correlated update. *)
Definition gain1 R H (s : kf) : option (M o n m) :=
  let Hm := opt_or (kf_H s) H in let Rm := sm_or (kf_R s) R in
  let PHT := mdot (kf_P s) (mtr Hm) in
  if kf_inv s (madd (mdot Hm PHT) Rm) is Some SI then Some (mdot PHT SI) else None.
Definition gain2 R H (s : kf) : option (M o n m) :=
  let Hm := opt_or (kf_H s) H in let Rm := sm_or (kf_R s) R in
  let PHT := mdot (kf_P s) (mtr Hm) in
  if kf_inv s (madd (madd (madd (mdot Hm PHT) (mdot Hm (kf_M s))) (mdot (mtr (kf_M s)) (mtr Hm))) Rm)
    is Some SI then Some (mdot (madd PHT (kf_M s)) SI) else None.

Definition moved (g : option (M o n m)) (y : M o m 1) (s s' : kf) : Prop :=
  kf_y s' = y /\ kf_x_prior s' = kf_x_prior s /\ kf_B s' = kf_B s /\
  match g with
  | None => kf_x s' = kf_x s /\ kf_x_post s' = kf_x_post s
  | Some K => kf_x s' = madd (kf_x s) (mdot K y) /\ kf_x_post s' = madd (kf_x s) (mdot K y)
  end.

Lemma moved1 z R H (s : kf) :
  moved (gain1 R H s) (msub z (mdot (opt_or (kf_H s) H) (kf_x s))) s (fst (kf_step (CUpdate (Some z) R H) s)).
Proof. case: s => *; rewrite /moved /gain1; kf_compute; by case: (_ (madd _ _)). Qed.
Lemma moved2 z R H (s : kf) :
  moved (gain2 R H s) (msub z (mdot (opt_or (kf_H s) H) (kf_x s))) s (fst (kf_step (CUpdateCorr (Some z) R H) s)).
Proof. case: s => *; rewrite /moved /gain2; kf_compute; by case: (_ (madd _ _)). Qed.
Lemma moved3 z (s : kf) :
  moved (Some (kf_K s)) (msub z (mdot (kf_H s) (kf_x s))) s (fst (kf_step (CUpdateSS (Some z)) s)).
Proof. by case: s => *; rewrite /moved; kf_compute. Qed.
Definition skipped (s s' : kf) : Prop :=
  [/\ kf_y s' = mzeros m 1, kf_x_prior s' = kf_x_prior s, kf_B s' = kf_B s, kf_x s' = kf_x s & kf_x_post s' = kf_x s].
Lemma skipped1 R H (s : kf) : skipped s (fst (kf_step (CUpdate None R H) s)).
Proof. by case: s => *; rewrite /skipped; kf_compute. Qed.
Lemma skipped2 R H (s : kf) : skipped s (fst (kf_step (CUpdateCorr None R H) s)).
Proof. by case: s => *; rewrite /skipped; kf_compute. Qed.
Lemma skipped3 (s : kf) : skipped s (fst (kf_step (CUpdateSS None) s)).
Proof. by case: s => *; rewrite /skipped; kf_compute. Qed.
Definition predicted (x : M o n 1) (s s' : kf) : Prop :=
  [/\ kf_y s' = kf_y s, kf_x_prior s' = x, kf_B s' = kf_B s, kf_x s' = x & kf_x_post s' = kf_x_post s].
Lemma predicted1 u B A Q (s : kf) :
  predicted (apply_control (opt_or (kf_F s) A) (kf_x s) (B_or (kf_B s) B) u) s (fst (kf_step (CPredict u B A Q) s)).
Proof. by case: s => *; rewrite /predicted; kf_compute. Qed.
Lemma predicted2 u B (s : kf) :
  predicted (apply_control (kf_F s) (kf_x s) (B_or (kf_B s) B) (Some u)) s (fst (kf_step (CPredictSS u B) s)).
Proof. by case: s => *; rewrite /predicted; kf_compute. Qed.
Lemma alpha_est v (s : kf) : let s' := fst (kf_step (CSetAlpha v) s) in
  [/\ kf_y s' = kf_y s, kf_x_prior s' = kf_x_prior s, kf_B s' = kf_B s, kf_x s' = kf_x s & kf_x_post s' = kf_x_post s].
Proof. rewrite /=; case: v => [v|] //=; by case: (sltb _ _ _). Qed.

Lemma gain1_cov R H (s t : kf) : same_cov s t -> gain1 R H s = gain1 R H t.
Proof. by rewrite /gain1 => -[-> [_ [_ [-> [-> [_ [_ [_ [_ [_ [_ [_ ->]]]]]]]]]]]]. Qed.
Lemma gain2_cov R H (s t : kf) : same_cov s t -> gain2 R H s = gain2 R H t.
Proof. by rewrite /gain2 => -[-> [_ [_ [-> [-> [_ [-> [_ [_ [_ [_ [_ ->]]]]]]]]]]]]. Qed.
Lemma H_cov (s t : kf) : same_cov s t -> kf_H s = kf_H t. Proof. by case=> _ [_ [_ [-> _]]]. Qed.
Lemma F_cov (s t : kf) : same_cov s t -> kf_F s = kf_F t. Proof. by case=> _ [_ [-> _]]. Qed.
Lemma K_cov (s t : kf) : same_cov s t -> kf_K s = kf_K t. Proof. by case=> _ [_ [_ [_ [_ [_ [_ [-> _]]]]]]]. Qed.
End Gain.

Section Comb.
Variable F : realFieldType.
Variables (fsqrt fexp flog : F -> F).
Notation EO := (exactO fsqrt fexp flog).
Variables n m l : nat.
Notation kf := (kf EO n m l).
Notation kf_call := (kf_call EO n m l).
Variables a b : F.

Lemma combM p q (G : 'M[F]_(p,q)) u v w : comb a b u v w -> comb a b (G *m u) (G *m v) (G *m w).
Proof. by rewrite /comb => ->; rewrite mulmxDr -!scalemxAr. Qed.
Lemma combD p (u v w u' v' w' : 'cV[F]_p) : comb a b u v w -> comb a b u' v' w' -> comb a b (u + u') (v + v') (w + w').
Proof. by rewrite /comb => -> ->; rewrite !scalerDr; zmod. Qed.
Lemma combB p (u v w u' v' w' : 'cV[F]_p) : comb a b u v w -> comb a b u' v' w' -> comb a b (u - u') (v - v') (w - w').
Proof. by rewrite /comb => -> ->; rewrite !scalerBr; zmod. Qed.
Lemma comb0 p : comb a b (0 : 'cV[F]_p) 0 0.
Proof. by rewrite /comb !scaler0 addr0. Qed.

Lemma comb_control (A : 'M[F]_n) B x x' x'' u u' u'' : comb a b x x' x'' -> comb_arg a b u u' u'' ->
  comb a b (apply_control (o := EO) A x B u : 'cV[F]_n) (apply_control (o := EO) A x' B u')
    (apply_control (o := EO) (l := l) A x'' B u'').
Proof.
move=> hx; case: u => [u|]; case: u' => [u'|]; case: u'' => [u''|] //= hu;
  case: B => [B|] /=; try by apply: combM.
by apply: combD; exact: combM.
Qed.

Definition comb_all (s t w : kf) : Prop :=
  [/\ same_cov s t, same_cov s w, kf_B s = kf_B t, kf_B s = kf_B w & comb_est a b s t w].
Definition est3 (s t w : kf) : Prop := [/\ kf_B s = kf_B t, kf_B s = kf_B w & comb_est a b s t w].

Lemma moved_comb (s t w s' t' w' : kf) g (y1 y2 y3 : 'cV[F]_m) : est3 s t w -> comb a b y1 y2 y3 ->
  moved g (y1 : M EO m 1) s s' -> moved g (y2 : M EO m 1) t t' -> moved g (y3 : M EO m 1) w w' -> est3 s' t' w'.
Proof.
case=> eB eB' [hx hp ho hy] hh [e1 [e2 [e3 e4]]] [f1 [f2 [f3 f4]]] [g1 [g2 [g3 g4]]].
rewrite /est3 /comb_est e1 e2 e3 f1 f2 f3 g1 g2 g3; split=> //.
case: g e4 f4 g4 => [K|] [-> ->] [-> ->] [-> ->]; split=> //.
all: apply: combD hx _; exact: combM.
Qed.
Lemma skipped_comb (s t w s' t' w' : kf) : est3 s t w ->
  skipped s s' -> skipped t t' -> skipped w w' -> est3 s' t' w'.
Proof.
case=> eB eB' [hx hp ho hy] [e1 e2 e3 e4 e5] [f1 f2 f3 f4 f5] [g1 g2 g3 g4 g5].
rewrite /est3 /comb_est e1 e2 e3 e4 e5 f1 f2 f3 f4 f5 g1 g2 g3 g4 g5; split=> //; split=> //; exact: comb0.
Qed.
Lemma predicted_comb (s t w s' t' w' : kf) (x1 x2 x3 : 'cV[F]_n) : est3 s t w -> comb a b x1 x2 x3 ->
  predicted (x1 : M EO n 1) s s' -> predicted (x2 : M EO n 1) t t' -> predicted (x3 : M EO n 1) w w' -> est3 s' t' w'.
Proof.
case=> eB eB' [hx hp ho hy] hh [e1 e2 e3 e4 e5] [f1 f2 f3 f4 f5] [g1 g2 g3 g4 g5].
by rewrite /est3 /comb_est e1 e2 e3 e4 e5 f1 f2 f3 f4 f5 g1 g2 g3 g4 g5.
Qed.

Lemma comb_arg_none p (u v w : option 'cV[F]_p) : comb_arg a b u v w -> (u = None <-> v = None) /\ (u = None <-> w = None).
Proof. by case: u => [u|]; case: v => [v|]; case: w => [w|]. Qed.

Lemma comb_shape c d e : comb_call a b c d e -> @same_shape EO n m l c d /\ @same_shape EO n m l c e.
Proof.
case: c => [u B A Q|z R H|u B|z|z R H|k iv st z R H|lp|lp fm||v];
case: d => [u' B' A' Q'|z' R' H'|u' B'|z'|z' R' H'|k' iv' st' z' R' H'|lp'|lp' fm'||v'] //;
case: e => [u'' B'' A'' Q''|z'' R'' H''|u'' B''|z''|z'' R'' H''|k'' iv'' st'' z'' R'' H''|lp''|lp'' fm''||v''] //=.
- by case=> _ [_ _ <- <- [<- <-]].
- by case=> /comb_arg_none [h1 h2] [<- <- <- <-].
- by case=> /comb_arg_none [h1 h2] [<- <- <- <-].
Qed.

Lemma step_est3 (c d e : kf_call) (s t w : kf) : comb_all s t w -> comb_call a b c d e ->
  est3 (fst (kf_step c s)) (fst (kf_step d t)) (fst (kf_step e w)).
Proof.
case=> st sw eB eB' he; have h : est3 s t w by [].
have hx : comb a b (kf_x s) (kf_x t) (kf_x w) by case: he.
case: c => [u B A Q|z R H|u B|z|z R H|k iv sx z R H|lp|lp fm||v];
case: d => [u' B' A' Q'|z' R' H'|u' B'|z'|z' R' H'|k' iv' st' z' R' H'|lp'|lp' fm'||v'] //;
case: e => [u'' B'' A'' Q''|z'' R'' H''|u'' B''|z''|z'' R'' H''|k'' iv'' st'' z'' R'' H''|lp''|lp'' fm''||v''] //.
- case=> hu [<- <- <- <- [<- <-]].
  apply: (predicted_comb h _ (predicted1 _ _ _ _ _) (predicted1 _ _ _ _ _) (predicted1 _ _ _ _ _)).
  rewrite -(F_cov st) -(F_cov sw) -eB -eB'; exact: comb_control.
- case=> hz [<- <- <- <-].
  case: z z' z'' hz => [z1|] [z2|] [z3|] // hz; last exact: skipped_comb (skipped1 _ _ _) (skipped1 _ _ _) (skipped1 _ _ _).
  have h1 := moved1 z1 R H s; have h2 := moved1 z2 R H t; have h3 := moved1 z3 R H w.
  rewrite -(gain1_cov _ _ st) -(H_cov st) in h2; rewrite -(gain1_cov _ _ sw) -(H_cov sw) in h3.
  by apply: moved_comb h _ h1 h2 h3; apply: combB hz _; apply: combM.
- case=> hu [<- <-].
  apply: (predicted_comb h _ (predicted2 _ _ _) (predicted2 _ _ _) (predicted2 _ _ _)).
  rewrite -(F_cov st) -(F_cov sw) -eB -eB'; exact: comb_control.
- move=> hz.
  case: z z' z'' hz => [z1|] [z2|] [z3|] // hz; last exact: skipped_comb (skipped3 _) (skipped3 _) (skipped3 _).
  have h1 := moved3 z1 s; have h2 := moved3 z2 t; have h3 := moved3 z3 w.
  rewrite -(K_cov st) -(H_cov st) in h2; rewrite -(K_cov sw) -(H_cov sw) in h3.
  by apply: moved_comb h _ h1 h2 h3; apply: combB hz _; apply: combM.
- case=> hz [<- <- <- <-].
  case: z z' z'' hz => [z1|] [z2|] [z3|] // hz; last exact: skipped_comb (skipped2 _ _ _) (skipped2 _ _ _) (skipped2 _ _ _).
  have h1 := moved2 z1 R H s; have h2 := moved2 z2 R H t; have h3 := moved2 z3 R H w.
  rewrite -(gain2_cov _ _ st) -(H_cov st) in h2; rewrite -(gain2_cov _ _ sw) -(H_cov sw) in h3.
  by apply: moved_comb h _ h1 h2 h3; apply: combB hz _; apply: combM.
- case=> <- <-; move: h => [_ _ [h1 h2 h3 h4]].
  have [e1 e2 e3 e4 e5] := alpha_est v s; have [f1 f2 f3 f4 f5] := alpha_est v t.
  have [g1 g2 g3 g4 g5] := alpha_est v w.
  by rewrite /est3 /comb_est e1 e2 e3 e4 e5 f1 f2 f3 f4 f5 g1 g2 g3 g4 g5.
Qed.

Lemma step_comb (c d e : kf_call) (s t w : kf) : comb_all s t w -> comb_call a b c d e ->
  comb_all (fst (kf_step c s)) (fst (kf_step d t)) (fst (kf_step e w)) /\
  snd (kf_step c s) = snd (kf_step e w).
Proof.
move=> h hc; have [e1 e2 e3] := step_est3 h hc; have [s1 s2] := comb_shape hc.
case: h => st sw _ _ _; have [h1 _] := @same_cov_step EO n m l _ _ _ _ s1 st; have [h2 h3] := @same_cov_step EO n m l _ _ _ _ s2 sw.
by split.
Qed.

Lemma run_comb (cs ds es : list kf_call) (s t w : kf) : comb_all s t w ->
  size cs = size ds -> size cs = size es ->
  (forall i c d e, List.nth_error cs i = Some c -> List.nth_error ds i = Some d -> List.nth_error es i = Some e ->
     comb_call a b c d e) ->
  comb_all (kf_run cs s) (kf_run ds t) (kf_run es w) /\ (all_ok cs s <-> all_ok es w).
Proof.
elim: cs ds es s t w => [|c cs IH] [|d ds] [|e es] s t w h // [e1] [e2] hc.
have [h1 h3] := step_comb h (hc 0%N _ _ _ erefl erefl erefl).
have [h4 h5] := IH _ _ _ _ _ h1 e1 e2 (fun i => hc i.+1).
split; first exact: h4.
by split; case=> e3 e4; split; [rewrite -h3|apply/h5|rewrite h3|apply/h5].
Qed.
End Comb.
