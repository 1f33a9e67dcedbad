(** * Change of coordinates. *)
From mathcomp Require Import all_ssreflect all_algebra.
From Verif Require Import Ops Exact Spec ZmodTac LinAlg Model_KF Spec_KF Spec_KF_exact Proof_KF Proof_KF_exact.
Set Implicit Arguments.
Unset Strict Implicit.
Unset Printing Implicit Defensive.
Import Order.TTheory GRing.Theory Num.Theory.
Local Open Scope ring_scope.

Arguments joseph : simpl never.
Ltac exo := cbv beta iota delta [mdot madd msub mscale mtr meye mzeros mget exactO exactS so M sc smul sdiv s1 s0 sltb].
Section Coords.
Variable F : realFieldType.
Variables (fsqrt fexp flog : F -> F).
Notation EO := (exactO fsqrt fexp flog).
Variables n m l : nat.
Notation kf := (kf EO n m l).
Notation kf_call := (kf_call EO n m l).
Variable T : 'M[F]_n.
Hypothesis uT : T \in unitmx.

Lemma cHx k p (H : 'M[F]_(k,n)) (x : 'M[F]_(n,p)) : H *m invmx T *m (T *m x) = H *m x.
Proof. by rewrite mulmxA mulmxKV. Qed.
Lemma cTT : T^T *m (invmx T)^T = 1%:M.
Proof. by rewrite -trmx_mul mulVmx // trmx1. Qed.
Lemma cPHT k (P : 'M[F]_n) (H : 'M[F]_(k,n)) :
  T *m P *m T^T *m (H *m invmx T)^T = T *m (P *m H^T).
Proof. by rewrite trmx_mul !mulmxA -(mulmxA (T *m P) T^T) cTT mulmx1. Qed.
Lemma cF (P A : 'M[F]_n) :
  T *m A *m invmx T *m (T *m P *m T^T) *m (T *m A *m invmx T)^T = T *m (A *m P *m A^T) *m T^T.
Proof.
rewrite -mulmxA cPHT (mulmxA _ T) mulmxKV //.
by rewrite trmx_mul !mulmxA.
Qed.
Lemma cJ k (P : 'M[F]_n) (K : 'M[F]_(n,k)) (H : 'M[F]_(k,n)) (R : 'M[F]_k) :
  joseph (o := EO) (T *m P *m T^T) (T *m K) (H *m invmx T) R = T *m joseph (o := EO) P K H R *m T^T.
Proof.
rewrite !josephE /Jmx.
have e : 1%:M - T *m K *m (H *m invmx T) = T *m (1%:M - K *m H) *m invmx T.
  by rewrite mulmxBr mulmx1 mulmxBl mulmxV // !mulmxA.
rewrite e cF; set A := 1%:M - K *m H; rewrite trmxM; mxring.
Qed.
Lemma cwrite k (K : 'M[F]_(n,m)) start (Ki : 'M[F]_(n,k)) :
  mwrite (o := EO) (T *m K) 0 start (T *m Ki) = T *m mwrite (o := EO) K 0 start Ki.
Proof.
apply/matrixP => i j; rewrite !mxE /=.
case: ifP => c; last first.
  rewrite mx_getE mxE; apply: eq_bigr => a _; rewrite mxE /=.
  have -> : PeanoNat.Nat.ltb a n = PeanoNat.Nat.ltb i n.
    by rewrite (proj2 (PeanoNat.Nat.ltb_lt a n) (elimT ssrnat.ltP (ltn_ord a)))
               (proj2 (PeanoNat.Nat.ltb_lt i n) (elimT ssrnat.ltP (ltn_ord i))).
  by rewrite c mx_getE.
move: (c) => /andP [/andP [_ c1] c2].
have hj : (j - start < k)%N.
  move: c1 c2 => /PeanoNat.Nat.leb_spec0/ssrnat.leP c1 /PeanoNat.Nat.ltb_spec0/ssrnat.ltP c2.
  by rewrite ltn_subLR.
rewrite PeanoNat.Nat.sub_0_r (mx_getP (T *m Ki) (ltn_ord i) hj) mxE; apply: eq_bigr => a _.
rewrite !mxE /=.
have -> : PeanoNat.Nat.ltb a n = PeanoNat.Nat.ltb i n.
  by rewrite (proj2 (PeanoNat.Nat.ltb_lt a n) (elimT ssrnat.ltP (ltn_ord a)))
             (proj2 (PeanoNat.Nat.ltb_lt i n) (elimT ssrnat.ltP (ltn_ord i))).
rewrite c PeanoNat.Nat.sub_0_r (mx_getP Ki (ltn_ord a) hj).
by congr (T _ _ * Ki _ _); apply: val_inj.
Qed.
Lemma cslice k (H : 'M[F]_(m,n)) start : (start + k <= m)%N ->
  mslice (o := EO) (H *m invmx T) start 0 k n = mslice (o := EO) H start 0 k n *m invmx T.
Proof.
move=> h; have e : (sel F n 0 n)^T = 1%:M.
  by apply/matrixP => i j; rewrite !mxE add0n eq_sym.
by rewrite !mslice_sel // e !mulmx1 mulmxA.
Qed.

Lemma step_coords (c : kf_call) (s s' : kf) : in_coords T s s' ->
  in_coords T (fst (kf_step c s)) (fst (kf_step (call_in_coords T c) s')) /\
  snd (kf_step c s) = snd (kf_step (call_in_coords T c) s').
Proof.
case: s => x P Q B A H R al Mm z K y S SI xp Pp xo Po ll lk mh iv.
case: s' => x' P' Q' B' A' H' R' al' Mm' z' K' y' S' SI' xp' Pp' xo' Po' ll' lk' mh' iv'.
rewrite /in_coords /=.
case=> [[-> -> -> -> ->] [[-> -> -> -> ->] [[-> -> ->] [-> -> -> ->]]]].
clear x' P' Q' B' A' H' R' al' Mm' K' y' S' xp' Pp' xo' Po' iv'.
case: c => /=.
- (* predict *)
  move=> u B1 A1 Q1.
  have ex : apply_control (o := EO) (opt_or (T *m A *m invmx T) (option_map (fun A0 : 'M[F]_n => T *m A0 *m invmx T) A1))
     (T *m x) (B_or (o := EO) (option_map (fun B0 : 'M[F]_(n,l) => T *m B0) B) (option_map (fun B0 : 'M[F]_(n,l) => T *m B0) B1)) u
     = T *m apply_control (o := EO) (opt_or A A1) x (B_or (o := EO) B B1) u.
    have e1 : opt_or (T *m A *m invmx T) (option_map (fun A0 : 'M[F]_n => T *m A0 *m invmx T) A1) =
      T *m opt_or A A1 *m invmx T by case: (A1).
    rewrite e1; case: B1 => [B1|]; [|case: B => [B|]]; case: u => [u|] /=; rewrite cHx ?mulmxDr ?mulmxA //.
  have eP : al *: (opt_or (T *m A *m invmx T) (option_map (fun A0 : 'M[F]_n => T *m A0 *m invmx T) A1) *m (T *m P *m T^T)
       *m (opt_or (T *m A *m invmx T) (option_map (fun A0 : 'M[F]_n => T *m A0 *m invmx T) A1))^T) +
      sm_or (o := EO) (T *m Q *m T^T) (if Q1 is Some q then Some (@Mat EO n (T *m sm_or (o := EO) (mzeros n n) (Some q) *m T^T)) else None)
     = T *m (al *: (opt_or A A1 *m P *m (opt_or A A1)^T) + sm_or (o := EO) Q Q1) *m T^T.
    have e1 : opt_or (T *m A *m invmx T) (option_map (fun A0 : 'M[F]_n => T *m A0 *m invmx T) A1) =
      T *m opt_or A A1 *m invmx T by case: (A1).
    rewrite e1 cF mulmxDr mulmxDl -scalemxAr -scalemxAl; congr (_ + _).
    by case: (Q1) => [[]|].
  by do !split.
- (* update *)
  case=> [z1|] R1 H1; last by do !split.
  kf_compute; exo.
  have eH : opt_or (H *m invmx T) (option_map (fun H0 : 'M[F]_(m,n) => H0 *m invmx T) H1) = opt_or H H1 *m invmx T.
    by case: H1.
  rewrite eH cPHT !cHx.
  case: (iv _) => [si|] /=; last by do !split.
  have eK : T *m (P *m (opt_or H H1)^T) *m si = T *m (P *m (opt_or H H1)^T *m si) by rewrite !mulmxA.
  by rewrite eK cJ -(mulmxA T _ (z1 - _)) -mulmxDr; do !split.
- (* predict_steadystate *)
  move=> u B1; do !split => //=.
  + by case: B1 => [B1|]; [|case: B => [B|]]; rewrite /= cHx ?mulmxDr ?mulmxA.
  + by case: B1 => [B1|]; [|case: B => [B|]]; rewrite /= cHx ?mulmxDr ?mulmxA.
- (* update_steadystate *)
  case=> [z1|] /=; last by do !split.
  by rewrite !cHx -(mulmxA T _ (z1 - _)) -mulmxDr; do !split.
- (* update_correlated *)
  case=> [z1|] R1 H1; last by do !split.
  kf_compute; exo.
  have eH : opt_or (H *m invmx T) (option_map (fun H0 : 'M[F]_(m,n) => H0 *m invmx T) H1) = opt_or H H1 *m invmx T.
    by case: H1.
  rewrite eH cPHT !cHx.
  have -> : (T *m Mm)^T *m (opt_or H H1 *m invmx T)^T = Mm^T *m (opt_or H H1)^T.
    by rewrite -!trmx_mul cHx.
  case: (iv _) => [si|] /=; last by do !split.
  have eP : T *m P *m T^T - (T *m (P *m (opt_or H H1)^T) + T *m Mm) *m si *m
       (opt_or H H1 *m invmx T *m (T *m P *m T^T) + (T *m Mm)^T) =
     T *m (P - (P *m (opt_or H H1)^T + Mm) *m si *m (opt_or H H1 *m P + Mm^T)) *m T^T.
    move: (opt_or H H1) => X.
    have -> : X *m invmx T *m (T *m P *m T^T) = X *m P *m T^T by rewrite -(mulmxA T) cHx mulmxA.
    mxring.
  have eK : (T *m (P *m (opt_or H H1)^T) + T *m Mm) *m si = T *m ((P *m (opt_or H H1)^T + Mm) *m si).
    by rewrite -mulmxDr !mulmxA.
  by rewrite eP eK -(mulmxA T _ (z1 - _)) -mulmxDr; do !split.
- (* update_sequential *)
  move=> k linv start z1 R1 H1; kf_compute; exo.
  case: PeanoNat.Nat.leb_spec0 => hk /=; last by do !split.
  have eH : opt_or (mslice (o := EO) (H *m invmx T) start 0 k n) (option_map (fun H0 : 'M[F]_(k,n) => H0 *m invmx T) H1)
     = opt_or (mslice (o := EO) H start 0 k n) H1 *m invmx T.
    by case: (H1) => [//|]; apply: cslice; apply/ssrnat.leP.
  rewrite eH cPHT !cHx.
  set Hk := opt_or _ H1; set Rk := sm_or _ R1.
  have fin Ki : in_coords T
     (mkKF (o := EO) (x + Ki *m (z1 - Hk *m x)) (joseph (o := EO) P Ki Hk Rk) Q B A H R al Mm z
       (mwrite (o := EO) K 0 start Ki) (mwrite (o := EO) y start 0 (z1 - Hk *m x)) S SI xp Pp
       (x + Ki *m (z1 - Hk *m x)) (joseph (o := EO) P Ki Hk Rk) ll lk mh iv)
     (mkKF (o := EO) (T *m x + T *m Ki *m (z1 - Hk *m x)) (joseph (o := EO) (T *m P *m T^T) (T *m Ki) (Hk *m invmx T) Rk)
       (T *m Q *m T^T) (option_map (fun B : 'M[F]_(n,l) => T *m B) B) (T *m A *m invmx T) (H *m invmx T) R al (T *m Mm) z'
       (mwrite (o := EO) (T *m K) 0 start (T *m Ki)) (mwrite (o := EO) y start 0 (z1 - Hk *m x)) S SI' (T *m xp) (T *m Pp *m T^T)
       (T *m x + T *m Ki *m (z1 - Hk *m x)) (joseph (o := EO) (T *m P *m T^T) (T *m Ki) (Hk *m invmx T) Rk) ll' lk' mh' iv).
    by rewrite cwrite cJ -mulmxA -mulmxDr.
  case: (PeanoNat.Nat.eqb k 1) => /=.
    rewrite (scalemxAr _ T); split=> //; exact: (fin (_ *: _)).
  case: (linv _) => [si|] /=; last by do !split.
  rewrite -(mulmxA T _ si); split=> //; exact: (fin (_ *m _)).
- move=> lp; rewrite /kf_log_likelihood /=.
  by case: ll => [v|]; case: ll' => [v'|] /=; do !split.
- move=> lp fm; rewrite /kf_likelihood /kf_log_likelihood /=.
  by case: lk => [v|]; case: lk' => [v'|] /=; case: ll => [w|]; case: ll' => [w'|] /=; do !split.
- rewrite /kf_mahalanobis /=.
  by case: mh => [v|]; case: mh' => [v'|] /=; do !split.
- case=> [a|] /=; last by do !split.
  by case: ifP => _ /=; do !split.
Qed.

Lemma run_coords (cs : list kf_call) (s s' : kf) : in_coords T s s' ->
  in_coords T (kf_run cs s) (kf_run (List.map (@call_in_coords F fsqrt fexp flog n m l T) cs) s').
Proof.
elim: cs s s' => [|c cs IH] s s' h //.
by apply: IH; case: (step_coords c h).
Qed.
End Coords.
