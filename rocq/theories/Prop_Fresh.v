(** * C51: a new KalmanFilter used before its matrices are set. *)
From mathcomp Require Import all_ssreflect all_algebra.
From Verif Require Import Ops Exact Spec ZmodTac LinAlg Model_KF Spec_KF Spec_KF_exact Proof_KF Proof_KF_exact Prop_Stat Prop_Joint.
Set Implicit Arguments.
Unset Strict Implicit.
Unset Printing Implicit Defensive.
Import Order.TTheory GRing.Theory Num.Theory.
Local Open Scope ring_scope.

Section Fresh.
Variable F : realFieldType.
Variables (fsqrt fexp flog : F -> F).
Notation EO := (exactO fsqrt fexp flog).
Variables n m l : nat.
Notation kf := (kf EO n m l).
Notation kf_call := (kf_call EO n m l).

(** predict with or without an input, and update with or without a measurement, nothing else given. *)
Definition plain (c : kf_call) : bool :=
  match c with CPredict _ None None None => true | CUpdate _ None None => true | _ => false end.
Definition is_predict (c : kf_call) : bool := if c is CPredict _ _ _ _ then true else false.

Record fresh (k : nat) (s : kf) : Prop := Fresh {
  fr_x : kf_x s = 0 :> 'cV[F]_n; fr_P : kf_P s = k.+1%:R%:M :> 'M[F]_n;
  fr_F : kf_F s = 1%:M :> 'M[F]_n; fr_Q : kf_Q s = 1%:M :> 'M[F]_n; fr_B : kf_B s = None;
  fr_H : kf_H s = 0 :> 'M[F]_(m, n); fr_R : kf_R s = 1%:M :> 'M[F]_m;
  fr_a : kf_alpha_sq s = 1 :> F; fr_i : inv_exact s }.

Lemma fresh_S k s : fresh k s -> innov_cov s None None = 1%:M.
Proof. by case=> _ _ _ _ _ eH eR _ _; rewrite /innov_cov /Hm /Rm /= eH eR mul0mx add0r. Qed.

Lemma fresh_update k s z : fresh k s ->
  let r := kf_step (@CUpdate EO n m l (Some z) None None) s in
  [/\ snd r = None, fresh k (fst r), kf_y (fst r) = z :> 'cV[F]_m, kf_S (fst r) = 1%:M :> 'M[F]_m & kf_K (fst r) = 0 :> 'M[F]_(n, m)].
Proof.
move=> fr r; have eS := fresh_S fr; have [ex eP eF eQ eB eH eR ea hi] := fr.
have uS : innov_cov s None None \in unitmx by rewrite eS unitmx1.
have [e1 e2 e3 _ [e4 e5 e6]] := update_exact z hi uS.
have [c1 [c2 [c3 [c4 [c5 [c6 c7]]]]]] := @step_config EO n m l (@CUpdate EO n m l (Some z) None None) s.
have ea' : kf_alpha_sq (fst r) = kf_alpha_sq s := update_alpha _ _ _ _.
move: e1 e2 e3 e4 e5 e6 ea' c1 c2 c3 c4 c5 c7; rewrite -(@step_updateE EO n m l) -/r.
move: r => [s' e] /= e1 e2 e3 e4 e5 e6 ea' c1 c2 c3 c4 c5 c7.
have K0 : Kmx (kf_P s : 'M[F]_n) (Hm s None) (Rm s None) = 0 by rewrite /Kmx /Hm /= eH trmx0 mulmx0 mul0mx.
rewrite K0 in e4 e5 e6.
split=> //.
- split; rewrite ?c1 ?c2 ?c3 ?c4 ?c5 ?ea' //.
  + by rewrite e5 mul0mx addr0.
  + by rewrite e6 /Jmx mul0mx subr0 !mul0mx addr0 trmx1 mulmx1 mul1mx.
  + by move=> A; rewrite c7.
- by rewrite e2 /Hm /= eH mul0mx subr0.
- by rewrite e3.
Qed.

Lemma fresh_predict k s u : fresh k s ->
  let r := kf_step (@CPredict EO n m l u None None None) s in snd r = None /\ fresh k.+1 (fst r).
Proof.
move=> [ex eP eF eQ eB eH eR ea hi] r.
have [c1 [c2 [c3 [c4 [c5 [c6 c7]]]]]] := @step_config EO n m l (@CPredict EO n m l u None None None) s.
have eP' : kf_P (fst r) = kf_alpha_sq s *: (kf_F s *m kf_P s *m (kf_F s)^T) + kf_Q s by rewrite /r (@step_predictE EO n m l).
have ex' : kf_x (fst r) = kf_F s *m kf_x s.
  by rewrite /r (@step_predictE EO n m l) /= /apply_control /B_or eB.
have ea' : kf_alpha_sq (fst r) = kf_alpha_sq s by rewrite /r (@step_predictE EO n m l).
have e0 : snd r = None by rewrite /r (@step_predictE EO n m l).
rewrite -/r in c1 c2 c3 c4 c5 c7; move: r e0 eP' ex' ea' c1 c2 c3 c4 c5 c7 => [s' e] /= e0 eP' ex' ea' c1 c2 c3 c4 c5 c7.
split=> //; split; rewrite ?c1 ?c2 ?c3 ?c4 ?c5 ?ea' //.
- by rewrite ex' ex mulmx0.
- by rewrite eP' ea eF eP eQ trmx1 mul1mx mulmx1 scale1r [k.+2%:R]mulrSr raddfD.
- by move=> A; rewrite c7.
Qed.
End Fresh.

(** Before F, H, Q, R or B are set nothing is learnt: whatever is measured and whatever input is
    given, no call raises, x stays zero, and P is the identity times one more than the number of
    predictions.  The residual of a measurement z is z itself, with system uncertainty I and gain 0. *)
Theorem C51_new_filter : forall (F : realFieldType) (fsqrt fexp flog : F -> F) (n m l : nat) (fmin : F)
    (cs : list (kf_call (exactO fsqrt fexp flog) n m l)),
  all (@plain F fsqrt fexp flog n m l) cs ->
  let s := @kf_init (exactO fsqrt fexp flog) n m l fmin (@mx_inv F m) in
  let s' := kf_run cs s in
  [/\ all_ok cs s, kf_x s' = 0 :> 'cV[F]_n, kf_P s' = (count (@is_predict F fsqrt fexp flog n m l) cs).+1%:R%:M :> 'M[F]_n &
      forall z, let r := fst (kf_step (@CUpdate (exactO fsqrt fexp flog) n m l (Some z) None None) s') in
        [/\ kf_y r = z :> 'cV[F]_m, kf_S r = 1%:M :> 'M[F]_m & kf_K r = 0 :> 'M[F]_(n, m)]].
Proof.
move=> F f1 f2 f3 n m l fmin cs hp s.
suff h : forall k s0, fresh k s0 -> all_ok cs s0 /\ fresh (count (@is_predict F f1 f2 f3 n m l) cs + k)%N (kf_run cs s0).
  have fr : fresh 0 s by split.
  have [h1 h2] := h 0%N s fr; rewrite addn0 in h2.
  move: (kf_run cs s) h2 => s' h2; split=> //; [exact: fr_x h2|exact: fr_P h2|].
  by move=> z; have [_ _ e1 e2 e3] := fresh_update z h2.
elim: cs hp {s} => [|c cs IH]; first by move=> _ k s0 fr; rewrite add0n.
move=> /= /andP [hc hcs] k s0 fr; have {}IH := IH hcs.
suff [h1 h2] : snd (kf_step c s0) = None /\ fresh (is_predict c + k)%N (fst (kf_step c s0)).
  have [g1 g2] := IH _ _ h2; split; first by split.
  by rewrite [(is_predict c + count _ cs)%N]addnC -addnA.
case: c hc => [u [B|] [A|] [Q|]|[z|] [R|] [H|]|u B|z|z R H|k' linv st z R H|lp|lp fm||v] // _.
- exact: fresh_predict.
- by have [h1 h2 _ _ _] := fresh_update z fr.
- by case: fr => *; split=> //; split.
Qed.
Print Assumptions C51_new_filter.

Example C51_new_filter_applies :
  all (@plain [realFieldType of rat] id id id 2 1 1)
    [:: @CPredict (exactO id id id) 2 1 1 (Some (const_mx 7%:R)) None None None;
        @CUpdate (exactO id id id) 2 1 1 (Some (const_mx 5%:R)) None None; @CUpdate (exactO id id id) 2 1 1 None None None].
Proof. by []. Qed.
