(** * An IMMEstimator that never switches modes against an MMAEFilterBank (C84). *)
From Coq Require Import ZArith QArith.
From mathcomp Require Import all_ssreflect all_algebra.
From Verif Require Import Ops Exact Spec ZmodTac FieldTac LinAlg Model_KF Model_MM Spec_MM Proof_UKF Proof_MM Prop_MM Prop_MMAE.
Set Implicit Arguments.
Unset Strict Implicit.
Unset Printing Implicit Defensive.
Import Order.TTheory GRing.Theory Num.Theory.
Local Close Scope Q_scope.
Local Close Scope Z_scope.
Local Open Scope ring_scope.

(** The same call made on the other class: update with the measurement only. *)
Definition same_call (o : nops) (n m l : nat) (c : imm_call o m l) : mmae_call o n m l :=
  match c with IPredict u => APredict n m u | IUpdate z => AUpdate l z None None end.

(** Assigning a filter the x and P it has changes nothing. *)
Definition put_own (o : nops) (n m l : nat) (T : Type) (D : filt o n m l T) : Prop :=
  forall f, f_put D (f_x D f) (f_P D f) f = f.

Lemma kf_put_own (o : nops) (n m l : nat) lpdf fmin : put_own (@kf_filt o n m l lpdf fmin).
Proof. by move=> f; destruct f; reflexivity. Qed.

(** No call of the sequence raises. *)
Fixpoint no_exception (o : nops) (n m l : nat) (T : Type) (D : filt o n m l T) (N : nat) (Mt : M o N N) (cs : list (imm_call o m l)) (s : imm o n T N) : bool :=
  match cs with
  | [::] => true
  | c :: cs => let r := imm_step D Mt c s in if snd r is None then no_exception D Mt cs (fst r) else false
  end.

Lemma update_all_same (o : nops) (n m l : nat) (T : Type) (D : filt o n m l T) (N : nat) z i fs lik (p : M o 1 N) k :
  fst (fst (imm_update_all D z i fs lik)) = fst (fst (mmae_update_all D z None None k fs p)) /\
  snd (imm_update_all D z i fs lik) = snd (mmae_update_all D z None None k fs p).
Proof.
elim: fs i lik k p => [|f fs IH] i lik k p //=; case: (f_update D z None None f) => f' [e|] //; case: (f_lik D f') => L f''.
set q := mfun _ _ _; have [] := IH i.+1 (set_nth lik i L) k.+1 q.
case: (imm_update_all _ _ _ _ _) => [[a b] c]; case: (mmae_update_all _ _ _ _ _ _ _) => [[a' b'] c'] /= -> ->.
by split.
Qed.

Section Identity.
Variable F : realFieldType.
Variables (fsqrt fexp flog : F -> F).
Notation EO := (exactO fsqrt fexp flog).
Variables n m l : nat.
Variable T : Type.
Variable D : filt EO n m l T.
Hypothesis own : put_own D.
Variable N : nat.
Variable d : T.
Notation I1 := (1%:M : 'M[F]_N).

Lemma omega_id (mu : 'rV[F]_N) : (forall j, 0 < mu 0 j) -> imm_cbar (o := EO) I1 mu = mu /\ imm_omega (o := EO) I1 mu mu = I1.
Proof.
move=> m0; split; first by rewrite -[LHS]/(mu *m I1) mulmx1.
apply/matrixP => i j; rewrite -[LHS]/((\matrix_(i < N, j < N) (mx_get I1 i j * mx_get mu 0 i / mx_get mu 0 j)) i j).
rewrite mxE mx_getE (mx_getE mu 0 i) (mx_getE mu 0 j) mxE.
case: eqP => [->|_]; last by rewrite !mul0r.
by rewrite mul1r divff // gt_eqF.
Qed.
Lemma mixed_id fs (j : 'I_N) : size fs = N -> imm_mixed D fs (I1 : M EO N N) j = (f_x D (nth d fs j), f_P D (nth d fs j)).
Proof.
move=> sN; rewrite /imm_mixed (mix_PE D d _ sN) (mix_xE D d _ sN).
have gE (i : 'I_N) : @mget EO N N I1 i j = ((i == j)%:R : F) by rewrite -[LHS]/(mx_get I1 i j) (mx_getE I1 i j) mxE.
have s1 (V : lmodType F) (g : 'I_N -> V) : \sum_(i < N) (@mget EO N N I1 i j : F) *: g i = g j.
  rewrite (bigD1 j) // gE eqxx scale1r big1 => [|i /negbTE h]; first exact: addr0.
  by rewrite gE h scale0r.
have xE : mixmean (fun i : 'I_N => @mget EO N N I1 i j) (fun i : 'I_N => f_x D (nth d fs i)) = f_x D (nth d fs j) by exact: s1.
rewrite xE; congr pair; rewrite /mixcov xE s1.
by rewrite subrr mul0mx add0r.
Qed.

Lemma predict_all_same u fs xP : size xP = size fs ->
  (forall j, (j < size fs)%N -> nth (f_x D d, f_P D d) xP j = (f_x D (nth d fs j), f_P D (nth d fs j))) ->
  imm_predict_all D u fs xP = mmae_predict_all D u fs.
Proof.
elim: fs xP => [|f fs IH] [|[x P] xP] //= [sz] h; have [-> ->] := h 0%N isT; rewrite own.
case: (f_predict D u f) => f' [e|] //; by rewrite IH // => j hj; exact: (h j.+1).
Qed.

(** The invariant: the same filters and probabilities, all of them possible, and nothing to mix. *)
Definition same (s : imm EO n T N) (a : mmae EO n m T N) : Prop :=
  [/\ i_filters s = a_filters a, size (i_filters s) = N /\ size (i_lik s) = N, i_mu s = a_p a /\ (forall j, 0 < (a_p a : 'rV[F]_N) 0 j),
      i_cbar s = i_mu s /\ i_omega s = I1 & a_H a = None].

Lemma same_predict u s a : same s a -> same (fst (imm_predict D u s)) (fst (mmae_predict D u a)) /\
  snd (imm_predict D u s) = snd (mmae_predict D u a).
Proof.
case: s => fs mu cb om lik x P xp Pp xo Po; case: a => fs' p H z x' P' xp' Pp' xo' Po' [].
cbn [i_filters i_mu i_cbar i_omega i_lik a_filters a_p a_H] => <- [sN lN] [-> p0] [-> ->] ->.
rewrite /imm_predict /mmae_predict; cbn [i_filters i_mu i_cbar i_omega i_lik a_filters a_p a_H].
rewrite (@predict_all_same u fs).
- have := @mmae_predict_allE F fsqrt fexp flog n m l T D d u fs.
  by case: (mmae_predict_all D u fs) => q [e|] /= [s1 _]; split=> //; split=> //; split=> //; rewrite ?s1.
- by rewrite -[LHS]/(length _) List.map_length List.seq_length sN.
move=> j; rewrite sN => hj; rewrite nth_map_seq // add0n.
exact: (mixed_id (Ordinal hj) sN).
Qed.

Lemma same_exn z s a : same s a -> snd (imm_update D I1 z s) = snd (mmae_update D z None None a).
Proof.
case: s => fs mu cb om lik x P xp Pp xo Po; case: a => fs' p H z0 x' P' xp' Pp' xo' Po' [].
cbn [i_filters i_mu i_cbar i_omega i_lik a_filters a_p a_H] => <- _ [_ _] _ ->.
rewrite /mmae_update /imm_update; cbn [a_H a_filters a_p i_filters i_lik].
have [] := @update_all_same EO n m l T D N z 0 fs lik p 0.
case: (imm_update_all _ _ _ _ _) => [[q1 q2] q3]; case: (mmae_update_all _ _ _ _ _ _ _) => [[r1 r2] r3] /= _ ->.
by case: r3.
Qed.
Lemma sum_pos (g : 'I_N -> F) : (0 < N)%N -> (forall k, 0 < g k) -> 0 < \sum_k g k.
Proof.
move=> N0 h; rewrite (bigD1 (Ordinal N0)) // ltr_paddr ?sumr_ge0 // => k _; exact: ltW.
Qed.
Hypothesis pos : positive_likelihoods D.
Lemma same_update z s a : (0 < N)%N -> same s a -> snd (mmae_update D z None None a) = None ->
  let s' := fst (imm_update D I1 z s) in let a' := fst (mmae_update D z None None a) in
  [/\ same s' a', snd (imm_update D I1 z s) = None & i_x s' = a_x a'].
Proof.
move=> N0; case: s => fs mu cb om lik x P xp Pp xo Po; case: a => fs' p H z0 x' P' xp' Pp' xo' Po' [].
cbn [i_filters i_mu i_cbar i_omega i_lik a_filters a_p a_H] => <- [sN lN] [-> p0] [-> ->] -> {fs' mu cb om H}.
set s := mkI _ _ _ _ _ _ _ _ _ _ _; set a := mkA _ _ _ _ _ _ _ _ _ _.
case Ea: (mmae_update D z None None a) => [a' [e|]] // _; case Es: (imm_update D I1 z s) => [s' e'].
have [e0 ff] : e' = None /\ i_filters s' = a_filters a'.
  move: Ea Es; rewrite /mmae_update /imm_update; cbn [a_H a a_filters a_p s i_filters i_lik].
  have [] := @update_all_same EO n m l T D N z 0 fs lik p 0.
  case: (imm_update_all _ _ _ _ _) => [[q1 q2] q3]; case: (mmae_update_all _ _ _ _ _ _ _) => [[r1 r2] r3] /= -> ->.
  by case: r3 => // -[<-] [<- <-].
subst e'; cbn [fst snd].
have [s1 hf pE _ [hH _ _ _]] := C30_update (s := a) d sN Ea; have [_ mE _ _ _] := C29_update (s := s) d sN lN Es.
have mp : i_mu s' = a_p a' by apply/rowP => j; rewrite mE pE.
have L0 (j : 'I_N) : 0 < (fst (f_lik D (fst (f_update D z None None (nth d fs j)))) : F) by have [h _] := hf j; exact: (pos h).
have S0 : 0 < \sum_k (p : 'rV[F]_N) 0 k * (fst (f_lik D (fst (f_update D z None None (nth d fs k)))) : F).
  apply: (@sum_pos (fun k => (p : 'rV[F]_N) 0 k * _) N0) => k; exact: mulr_gt0.
have p0' j : 0 < (a_p a' : 'rV[F]_N) 0 j by rewrite pE divr_gt0 // mulr_gt0.
have [cE oE xE lE] : [/\ i_cbar s' = imm_cbar (o := EO) I1 (i_mu s'), i_omega s' = imm_omega (o := EO) I1 (i_mu s') (i_cbar s'),
    i_x s' = mix_x D (i_filters s') (fun i => @mget EO 1 N (i_mu s') 0 i) & size (i_lik s') = N].
  move: Es; rewrite /imm_update; cbn [s i_filters i_lik].
  have := @imm_update_allE F fsqrt fexp flog n m l T D d z 0 fs lik.
  case: (imm_update_all _ _ _ _ _) => [[q1 q2] [q3|]] // [_ /= s2 _] [<-]; by split=> //; exact: etrans s2 lN.
have [c1 o1] := omega_id p0'; rewrite mp in cE oE; rewrite c1 in cE; rewrite cE o1 in oE.
split=> //; last first.
  rewrite xE ff mp; move: Ea; rewrite /mmae_update; cbn [a_H a a_filters a_p].
  by case: (mmae_update_all _ _ _ _ _ _ _) => [[r1 r2] [r3|]] // [<-].
by split=> //; [rewrite ff|rewrite cE mp].
Qed.
End Identity.

(** ** C84.  An IMMEstimator whose transition matrix is the identity (no mode ever switches to another), against an MMAEFilterBank
    made from the same filters and probabilities: the calls of a sequence succeed on one if and only if they do on the other,
    and then the two hold the same filters and the same probabilities; if the last call was an update also the same x.  (The P of
    the two differ: C30_reported_P.) *)
Theorem C84_no_switching : forall (F : realFieldType) (fsqrt fexp flog : F -> F) (n m l : nat) (T : Type)
    (D : filt (exactO fsqrt fexp flog) n m l T) (N : nat) (f0 : T) (fs : list T) (mu : 'rV[F]_N) z0
    (cs : list (imm_call (exactO fsqrt fexp flog) m l)),
  put_own D -> positive_likelihoods D -> (forall j, 0 < mu 0 j) -> \sum_j mu 0 j = 1 -> size fs = N ->
  let s0 := imm_init D (1%:M : 'M[F]_N) fs mu in let s := imm_run D (1%:M : 'M[F]_N) cs s0 in
  match mmae_run D (List.map (@same_call _ n m l) cs) (mmae_init D f0 fs (mu : M (exactO fsqrt fexp flog) 1 N) None z0) with
  | None => no_exception D (1%:M : 'M[F]_N) cs s0 = false
  | Some a => [/\ no_exception D (1%:M : 'M[F]_N) cs s0 = true, i_filters s = a_filters a, i_mu s = a_p a &
                  forall c z, cs = c ++ [:: IUpdate l z] -> i_x s = a_x a]
  end.
Proof.
move=> F fsqrt fexp flog n m l T D N f0 fs mu z0 cs own pos m0 m1 sN.
have N0 : (0 < N)%N by case: N {sN} mu m0 m1 => // mu _; rewrite big_ord0 => /eqP; rewrite eq_sym oner_eq0.
suff K : forall s0 a0, same s0 a0 -> let s := imm_run D (1%:M : 'M[F]_N) cs s0 in
    match mmae_run D (List.map (@same_call _ n m l) cs) a0 with
    | None => no_exception D (1%:M : 'M[F]_N) cs s0 = false
    | Some a => [/\ no_exception D (1%:M : 'M[F]_N) cs s0 = true, same s a & forall c z, cs = c ++ [:: IUpdate l z] -> i_x s = a_x a]
    end.
  move=> s0 s; have := K s0 (mmae_init D f0 fs (mu : M (exactO fsqrt fexp flog) 1 N) None z0).
  have muE : @mdivs (exactO fsqrt fexp flog) 1 N mu (vsum (mu : M (exactO fsqrt fexp flog) 1 N)) = mu.
    by apply/rowP => j; rewrite mxE vsumE m1 invr1 mul1r.
  have st : same s0 (mmae_init D f0 fs (mu : M (exactO fsqrt fexp flog) 1 N) None z0).
    rewrite /s0 /imm_init muE; have [c1 o1] := omega_id fsqrt fexp flog m0.
    split=> //; cbn [i_filters i_lik i_cbar i_mu i_omega].
    - by split=> //; rewrite -[LHS]/(length (List.repeat _ N)) List.repeat_length.
    - by rewrite c1 o1.
  move=> /(_ st) /=; case: (mmae_run _ _ _) => [a [h0 [h1 _ [h2 _] _ _] h3]|] //; by split.
have d := f0.
elim: cs => [|c cs IH] s0 a0 inv; first by split=> // -[|? ?].
rewrite [imm_run _ _ _ _]/(imm_run D (1%:M : 'M[F]_N) cs (fst (imm_step D (1%:M : 'M[F]_N) c s0))).
cbn [List.map mmae_run no_exception].
have eE : snd (imm_step D (1%:M : 'M[F]_N) c s0) = snd (mmae_step D (same_call n c) a0).
  case: c => [u|z]; first by have [] := same_predict own d u inv.
  exact: same_exn.
rewrite eE; case E: (mmae_step D (same_call n c) a0) => [a1 [e|]] //; cbn [snd].
have inv1 : same (fst (imm_step D (1%:M : 'M[F]_N) c s0)) a1 /\ (forall z, c = IUpdate l z -> i_x (fst (imm_step D (1%:M : 'M[F]_N) c s0)) = a_x a1).
  case: c E {eE} => [u|z] E.
    have [] := same_predict own d u inv; rewrite /imm_step; move: E; rewrite /mmae_step /same_call => -> /= h _; by split.
  have := @same_update F fsqrt fexp flog n m l T D N d pos z s0 a0 N0 inv; rewrite /imm_step; move: E; rewrite /mmae_step /same_call => -> /(_ erefl) /= [h1 _ h2]; by split.
have := IH _ _ inv1.1; case R: (mmae_run _ _ _) => [a|] //= [h0 h1 h2]; split=> // -[|c' q] z /= [e1 e2]; last exact: h2 e2.
by move: R; rewrite e2 /= => -[<-]; exact: inv1.2 e1.
Qed.
Print Assumptions C84_no_switching.

(** KalmanFilter objects qualify. *)
Theorem C84_kalman : forall (F : realFieldType) (fsqrt fexp flog : F -> F) (n m l : nat) lpdf (fmin : F),
  (forall x, 0 <= fexp x) -> 0 < fmin ->
  put_own (@kf_filt (exactO fsqrt fexp flog) n m l lpdf fmin) /\ positive_likelihoods (@kf_filt (exactO fsqrt fexp flog) n m l lpdf fmin).
Proof.
move=> F fsqrt fexp flog n m l lpdf fmin e0 f0; split; first exact: kf_put_own.
have h := @C30_kalman_filters_qualify F fsqrt fexp flog n m l lpdf fmin e0 f0; by move=> z f f'; exact: (h z None None f f').
Qed.
Print Assumptions C84_kalman.
