(** * SquareRootKalmanFilter: C21. *)
From mathcomp Require Import all_ssreflect all_algebra.
From Verif Require Import Ops Exact Spec ZmodTac LinAlg Cholesky Model_KF Model_EKF Model_Info Model_Sqrt Spec_Lin Spec_KF_exact Proof_KF Proof_KF_exact Prop_Info.
Set Implicit Arguments.
Unset Strict Implicit.
Unset Printing Implicit Defensive.
Import Order.TTheory GRing.Theory Num.Theory.
Local Open Scope ring_scope.

Lemma sq_updateE (o : nops) n m l (qr : forall p q, M o p q -> M o p q) pinv z R2 (c : sq_cfg o n m l) (s : sq_st o n m) A S12 SI12 K P12 :
  mwrite (mwrite (mwrite (q_M s) 0 0 (mtr R2)) m 0 (mtr (mdot (sc_H c) (q_P12 s)))) m m (mtr (q_P12 s)) = A ->
  mtr (mslice (qr _ _ A) 0 0 m m) = S12 -> pinv S12 = SI12 -> mdot (mtr (mslice (qr _ _ A) 0 m m n)) SI12 = K ->
  mtr (mslice (qr _ _ A) m m n n) = P12 ->
  sq_update qr pinv (Some z) (Some (Mat R2)) c s =
  let y := msub z (mdot (sc_H c) (q_x s)) in
  let x := madd (q_x s) (mdot K y) in
  mkSS x P12 (Some z) K S12 SI12 y A (q_x_prior s) (q_P12_prior s) x P12.
Proof. by move=> <- <- <- <- <-. Qed.

Lemma sq_predictE (o : nops) n m l (qr : forall p q, M o p q -> M o p q) u (c : sq_cfg o n m l) (s : sq_st o n m) x A P12 :
  match sc_B c, u with
  | Some B, Some u => madd (mdot (sc_F c) (q_x s)) (mdot B u)
  | _, _ => madd (mdot (sc_F c) (q_x s)) (mzeros n 1)
  end = x -> hstack (mdot (sc_F c) (q_P12 s)) (sc_Q12 c) = A ->
  mtr (mslice (qr _ _ (mtr A)) 0 0 n n) = P12 ->
  sq_predict qr u c s =
  mkSS x P12 (q_z s) (q_K s) (q_S12 s) (q_SI12 s) (q_y s) (q_M s) x P12 (q_x_post s) (q_P12_post s).
Proof. by move=> <- <- <-. Qed.

Section Sqrt.
Variables (F : realFieldType) (fsqrt fexp flog : F -> F).
Notation EO := (exactO fsqrt fexp flog).
Variables n m l : nat.
Notation kf := (kf EO n m l).
Notation sst := (sq_st EO n m).

(** What is assumed of scipy.linalg.qr (R factor, full mode) on a matrix with at least
    as many rows as columns, and of scipy.linalg.pinv on an invertible matrix. *)
Definition qr_spec (qr : forall p q, M EO p q -> M EO p q) : Prop :=
  forall p q (A : 'M[F]_(p, q)), (q <= p)%N ->
    (qr p q A : 'M[F]_(p,q))^T *m (qr p q A : 'M[F]_(p,q)) = A^T *m A /\ upper (qr p q A : 'M[F]_(p,q)).
Definition pinv_spec (pinv : M EO m m -> M EO m m) : Prop :=
  forall A : 'M[F]_m, A \in unitmx -> pinv A = invmx A.

(** Driving the filter through a linear history given by square roots of Q and R. *)
Definition sq_of (d : sq_cfg EO n m l) (c : lin_call EO n m l) : sq_cfg EO n m l * sq_call EO m l :=
  match c with
  | LPredict A Q2 B u => (@mkSC EO n m l Q2 B A (sc_H d) (sc_R12 d), SPredict u)
  | LUpdate z R2 H => (@mkSC EO n m l (sc_Q12 d) (sc_B d) (sc_F d) H (sc_R12 d), SUpdate z (Some (@Mat EO m R2)))
  end.
Definition lin_sq (c : lin_call EO n m l) : lin_call EO n m l :=
  match c with
  | LPredict A Q2 B u => LPredict A ((Q2 : 'M[F]_n) *m (Q2 : 'M[F]_n)^T : M EO n n) B u
  | LUpdate z R2 H => LUpdate z ((R2 : 'M[F]_m) *m (R2 : 'M[F]_m)^T : M EO m m) H
  end.
Definition good_sq (c : lin_call EO n m l) : Prop :=
  match c with LPredict _ _ _ _ => True | LUpdate z R2 H => (R2 : 'M[F]_m) \in unitmx end.

Definition sq_rel (k : kf) (s : sst) : Prop :=
  [/\ q_x s = kf_x k, (q_P12 s : 'M[F]_n) *m (q_P12 s : 'M[F]_n)^T = kf_P k &
      forall i j, (i < m)%N -> (m <= j)%N -> mget (q_M s) i j = (0 : F)].

Lemma sliceE p q (A : 'M[F]_(p, q)) r c a b : (r + a <= p)%N -> (c + b <= q)%N ->
  forall i j, mslice (o := EO) A r c a b i j = mx_get A (r + i) (c + j).
Proof. by move=> h1 h2 i j; rewrite mxE. Qed.

Lemma slice_ul (A : 'M[F]_(m + n)) : mslice (o := EO) A 0 0 m m = ulsubmx A.
Proof.
apply/matrixP => i j; rewrite !mxE /=.
by rewrite -(mx_getE A (lshift n i) (lshift n j)).
Qed.
Lemma slice_ur (A : 'M[F]_(m + n)) : mslice (o := EO) A 0 m m n = ursubmx A.
Proof.
apply/matrixP => i j; rewrite !mxE /=.
by rewrite -(mx_getE A (lshift n i) (rshift m j)).
Qed.
Lemma slice_dr (A : 'M[F]_(m + n)) : mslice (o := EO) A m m n n = drsubmx A.
Proof.
apply/matrixP => i j; rewrite !mxE /=.
by rewrite -(mx_getE A (rshift m i) (rshift m j)).
Qed.

Lemma upper_dl p q a b (A : 'M[F]_(p + q, a + b)) : (a <= p)%N -> upper A -> dlsubmx A = 0.
Proof.
move=> ap /upperP u; apply/matrixP => i j; rewrite !mxE; apply: u => /=.
by apply: leq_trans (ltn_ord j) _; apply: leq_trans ap _; exact: leq_addr.
Qed.

Lemma lebE a b : PeanoNat.Nat.leb a b = (a <= b)%N.
Proof. by apply/idP/idP => [/PeanoNat.Nat.leb_le/ssrnat.leP|/ssrnat.leP/PeanoNat.Nat.leb_le]. Qed.
Lemma ltbE a b : PeanoNat.Nat.ltb a b = (a < b)%N. Proof. by rewrite /PeanoNat.Nat.ltb lebE. Qed.

Lemma mwriteE p q a b (A : 'M[F]_(p, q)) r c (V : 'M[F]_(a, b)) i j :
  mwrite (o := EO) A r c V i j = if [&& r <= i, i < r + a, c <= j & j < c + b]%N then mx_get V (i - r) (j - c) else A i j.
Proof. by rewrite mxE /= !lebE !ltbE -!andbA mx_getE. Qed.

(** The array built by update. *)
Lemma write_block (A0 : 'M[F]_(m + n)) (R2 : 'M[F]_m) (C : 'M[F]_(n,m)) (D : 'M[F]_n) :
  (forall i j, (i < m)%N -> (m <= j)%N -> mx_get A0 i j = 0) ->
  mwrite (o := EO) (mwrite (o := EO) (mwrite (o := EO) A0 0 0 R2) m 0 C) m m D = block_mx R2 0 C D.
Proof.
move=> h0; apply/matrixP => i j; rewrite !mwriteE /block_mx [RHS]mxE.
case: (splitP i) => i' ei; rewrite mxE; case: (splitP j) => j' ej; rewrite ei ej /=.
- by rewrite [(m <= i')%N]leqNgt !ltn_ord /= !subn0 mx_getE.
- rewrite [(m <= i')%N]leqNgt ?ltn_ord /= ?andbF /= mxE.
  by rewrite -(mx_getE A0) h0 // ?ei ?ltn_ord // ej leq_addr.
- rewrite leq_addr ltn_add2l !ltn_ord /= [(m <= j')%N]leqNgt ltn_ord /=.
  by rewrite addKn subn0 mx_getE.
- by rewrite !leq_addr !ltn_add2l !ltn_ord /= !addKn mx_getE.
Qed.

Variables (qr : forall p q, M EO p q -> M EO p q) (pinv : M EO m m -> M EO m m).
Hypotheses (hqr : qr_spec qr) (hpinv : pinv_spec pinv).

Lemma sq_update_rel (z : option 'cV[F]_m) (R2 : 'M[F]_m) (H : 'M[F]_(m,n)) d (k : kf) (s : sst) :
  sq_rel k s -> inv_exact k -> R2 \in unitmx ->
  let c := @LUpdate EO n m l z R2 H in
  let k' := fst (kf_step (kf_of (lin_sq c)) k) in
  let s' := sq_step qr pinv (sq_of d c) s in
  sq_rel k' s' /\
  (z <> None -> [/\ sq_S s' = kf_S k', sq_SI s' = kf_SI k', q_K s' = kf_K k' & q_y s' = kf_y k']).
Proof.
move=> [ex eP eM] hi uR c k' s'.
have pR : pd (R2 *m R2^T) by have := pd_congr uR (pd1 F m); rewrite mulmx1.
have pP : psd (kf_P k : 'M[F]_n) by rewrite -eP; exact: psd_gram.
have pS := pd_Smx H pP pR.
case: z @c @k' @s' => [z|] c k' s'; last by split.
have [_ k1 k2 k3 [k4 k5 k6]] : [/\ snd (@kf_update EO n m l (Some z) (Some (@Mat EO m (R2 *m R2^T))) (Some H) k) = None,
      kf_y k' = z - H *m kf_x k, kf_S k' = Smx (kf_P k) H (R2 *m R2^T), kf_SI k' = invmx (Smx (kf_P k) H (R2 *m R2^T)) &
      [/\ kf_K k' = Kmx (kf_P k) H (R2 *m R2^T), kf_x k' = kf_x k + Kmx (kf_P k) H (R2 *m R2^T) *m (z - H *m kf_x k) &
      kf_P k' = Jmx (kf_P k) H (R2 *m R2^T) (Kmx (kf_P k) H (R2 *m R2^T))]].
  by apply: (@update_exact F fsqrt fexp flog n m l k z (Some (@Mat EO m (R2 *m R2^T))) (Some H) hi); exact: pd_unit.
set R := R2 *m R2^T in pR pS k1 k2 k3 k4 k5 k6.
set A := block_mx R2^T 0 (H *m q_P12 s)^T (q_P12 s : 'M[F]_n)^T.
have eA : mwrite (o := EO) (mwrite (o := EO) (mwrite (o := EO) (q_M s) 0 0 (R2^T : M EO m m)) m 0 ((H *m q_P12 s)^T : M EO n m)) m m ((q_P12 s : 'M[F]_n)^T : M EO n n) = A.
  exact: write_block.
have [g u] := hqr A (leqnn _).
set r := qr A in g u.
have er := submxK (r : 'M[F]_(m + n)).
set r11 := ulsubmx (r : 'M[F]_(m + n)) in er; set r12 := ursubmx (r : 'M[F]_(m + n)) in er; set r22 := drsubmx (r : 'M[F]_(m + n)) in er.
rewrite (upper_dl (leqnn m) u) in er.
move: g; rewrite -er /A !tr_block_mx !mulmx_block !trmx0 !mul0mx !mulmx0 !addr0 ?add0r !trmxK.
case/eq_block_mx => g1 g2 g3 g4.
have {}g1 : r11^T *m r11 = Smx (kf_P k) H R.
  by rewrite g1 trmxM /Smx -eP !mulmxA addrC.
have {}g2 : r11^T *m r12 = H *m kf_P k by rewrite g2 -eP mulmxA.
have {}g4 : r12^T *m r12 + r22^T *m r22 = kf_P k by rewrite g4.
have u11 : r11 \in unitmx.
  by have := pd_unit pS; rewrite -g1 unitmx_mul => /andP [].
have eK : r12^T *m invmx r11^T = Kmx (kf_P k) H R.
  rewrite /Kmx -g1 invmxM ?unitmx_tr // mulmxA.
  have -> : kf_P k *m H^T = r12^T *m r11.
    by apply: trmx_inj; rewrite !trmxM !trmxK g2 (psd_sym pP).
  by rewrite mulmxK.
have eP' : r22^T *m r22 = kf_P k'.
  have eJ : Jmx (kf_P k) H R (Kmx (kf_P k) H R) = kf_P k - Kmx (kf_P k) H R *m Smx (kf_P k) H R *m (Kmx (kf_P k) H R)^T.
    by apply: Jmx_minus; first [exact: psd_sym | exact: pd_sym | exact: pd_unit].
  have eKr : Kmx (kf_P k) H R *m r11^T = r12^T by rewrite -eK mulmxKV ?unitmx_tr.
  rewrite k6 eJ -g1 mulmxA eKr -mulmxA.
  have -> : r11 *m (Kmx (kf_P k) H R)^T = r12 by apply: trmx_inj; rewrite trmxM trmxK.
  by rewrite -g4 [_ + r22^T *m _]addrC addrK.
have h : s' = @mkSS EO n m (q_x s + Kmx (kf_P k) H R *m (z - H *m q_x s)) r22^T (Some (z : M EO m 1)) (Kmx (kf_P k) H R)
     r11^T (invmx r11^T) (z - H *m q_x s) A (q_x_prior s) (q_P12_prior s)
     (q_x s + Kmx (kf_P k) H R *m (z - H *m q_x s)) r22^T.
  apply: (@sq_updateE EO n m l qr pinv z R2 (@mkSC EO n m l (sc_Q12 d) (sc_B d) (sc_F d) H (sc_R12 d)) s A) => //.
  - by congr trmx; exact: slice_ul.
  - by apply: hpinv; rewrite unitmx_tr.
  - by rewrite -eK; congr (trmx _ *m _); exact: slice_ur.
  - by congr trmx; exact: slice_dr.
rewrite h; split; last first.
  move=> _; split=> /=; rewrite ?k4 ?k1 ?ex //.
  - by rewrite /sq_S /= trmxK k2 g1.
  - by rewrite /sq_SI /= k3 -g1 invmxM ?unitmx_tr // trmx_inv trmxK.
split=> /=; first by rewrite k5 ex.
- by rewrite trmxK eP'.
- move=> i j li lj; case: (ltnP j (m + n)) => lj'; last by rewrite mx_get_out // lj' orbT.
  have ei : i = lshift n (Ordinal li) by [].
  have lj2 : (j - m < n)%N by rewrite ltn_subLR.
  have ej : j = rshift m (Ordinal lj2) by rewrite /= subnKC.
  by rewrite [in LHS]ei [in LHS]ej mx_getE /A block_mxEur mxE.
Qed.

Lemma hstack_gram p q r (A : 'M[F]_(p, q)) (B : 'M[F]_(p, r)) :
  hstack (o := EO) A B = row_mx A B.
Proof.
apply/matrixP => i j; rewrite !mxE ltbE; case: splitP => j' ej; rewrite ej.
- by rewrite /= mx_getE.
- by have -> : (q + j' - q)%coq_nat = j' := addKn q j'; rewrite /= mx_getE.
Qed.

Lemma sq_predict_rel (A Q2 : 'M[F]_n) B u d (k : kf) (s : sst) :
  sq_rel k s -> kf_B k = None -> kf_alpha_sq k = 1 ->
  let c := @LPredict EO n m l A Q2 B u in
  let k' := fst (kf_step (kf_of (lin_sq c)) k) in
  let s' := sq_step qr pinv (sq_of d c) s in
  [/\ sq_rel k' s', q_x_prior s' = kf_x_prior k' & sq_P_prior s' = kf_P_prior k'].
Proof.
move=> [ex eP eM] hB ha c k' s'.
have [k1 [k2 _]] := @kf_predict_fields EO n m l u k A (Q2 *m Q2^T : 'M[F]_n) B hB.
have kx : kf_x k' = match B, u with Some B, Some u => A *m kf_x k + (B : 'M[F]_(n,l)) *m u | _, _ => A *m kf_x k + 0 end.
  by rewrite [LHS]k1 /apply_control; case: (B) => [b|]; case: (u) => [v|] //=; rewrite addr0.
have kP : kf_P k' = A *m kf_P k *m A^T + Q2 *m Q2^T by rewrite [LHS]k2 ha /= scale1r.
have [g up] := hqr (row_mx (A *m q_P12 s) Q2)^T (leq_addr n n).
set r := qr _ in g up.
have er := vsubmxK (r : 'M[F]_(n + n, n)).
have ed : dsubmx (r : 'M[F]_(n + n, n)) = 0.
  apply/matrixP => i j; rewrite !mxE; move/upperP: up => -> //=.
  by apply: leq_trans (ltn_ord j) (leq_addr _ _).
rewrite ed in er; set r1 := usubmx _ in er.
have sl : mslice (o := EO) (r : 'M[F]_(n + n, n)) 0 0 n n = r1.
  apply/matrixP => i j; rewrite !mxE /=.
  by rewrite -(mx_getE (r : 'M[F]_(n + n, n)) (lshift n i) j).
have g1 : r1^T *m r1 = kf_P k'.
  move: g; rewrite -er tr_col_mx mul_row_col trmx0 mul0mx addr0 trmxK tr_row_mx mul_row_col => ->.
  by rewrite kP trmxM -eP !mulmxA.
have h : s' = @mkSS EO n m (kf_x k') r1^T (q_z s) (q_K s) (q_S12 s) (q_SI12 s) (q_y s) (q_M s) (kf_x k') r1^T (q_x_post s) (q_P12_post s).
  have ex' : match B, u with Some B, Some u => A *m q_x s + (B : 'M[F]_(n,l)) *m u | _, _ => A *m q_x s + 0 end = kf_x k'.
    by rewrite kx ex.
  apply: (@sq_predictE EO n m l qr u (@mkSC EO n m l Q2 B A (sc_H d) (sc_R12 d)) s _ _ _ ex' (hstack_gram (A *m q_P12 s) Q2)).
  by congr trmx.
rewrite h; split=> //.
- by split=> //=; rewrite trmxK.
- by rewrite /= /sq_P_prior /= trmxK g1.
Qed.
End Sqrt.

(** ** C21. *)
Theorem C21_square_root_is_kalman : forall (F : realFieldType) (fsqrt fexp flog : F -> F) (n m l : nat)
    (qr : forall p q, M (exactO fsqrt fexp flog) p q -> M (exactO fsqrt fexp flog) p q) pinv
    (d : sq_cfg (exactO fsqrt fexp flog) n m l) (cs : seq (lin_call (exactO fsqrt fexp flog) n m l))
    (k : kf (exactO fsqrt fexp flog) n m l) (s : sq_st (exactO fsqrt fexp flog) n m),
  qr_spec qr -> pinv_spec pinv ->
  sq_rel k s -> kf_B k = None -> kf_alpha_sq k = (1 : F) -> inv_exact k -> List.Forall (@good_sq F fsqrt fexp flog n m l) cs ->
  let k' := kf_run (map (fun c => kf_of (lin_sq c)) cs) k in
  let s' := sq_run qr pinv (map (sq_of d) cs) s in
  [/\ q_x s' = kf_x k', sq_P s' = kf_P k' & psd (sq_P s' : 'M[F]_n)].
Proof.
move=> F f1 f2 f3 n m l qr pinv d cs k s hq hp r0 hB0 ha0 hi0 g k' s'.
suff [e1 e2 _] : sq_rel k' s' by split=> //; rewrite /sq_P; exact: psd_gram.
rewrite /k' /s' {k' s'}; elim: cs k s r0 hB0 ha0 hi0 g => [|c cs IH] k s r hB ha hi g //=.
have [gc gcs] : good_sq c /\ List.Forall (@good_sq F f1 f2 f3 n m l) cs by inversion g.
rewrite /sq_run /kf_run /= -/(kf_run _ _) -/(sq_run _ _ _ _).
case: c gc {g} => [A Q B u|z R H] gc.
- have [r' _ _] := sq_predict_rel pinv hq A Q B u d r hB ha.
  have [_ [_ [h1 [h2 h3]]]] := @kf_predict_fields (exactO f1 f2 f3) n m l u k A (Q *m (Q : 'M[F]_n)^T : 'M[F]_n) B hB.
  by apply: IH => // M; rewrite -hi; exact: (congr1 (fun f => f M) h3).
- have [r' _] := sq_update_rel hq hp z H d r hi gc.
  have [_ [_ [h1 [_ [_ [_ h3]]]]]] := @step_config (exactO f1 f2 f3) n m l (kf_of (lin_sq (@LUpdate (exactO f1 f2 f3) n m l z R H))) k.
  apply: IH => //; last by move=> M; rewrite -hi; exact: (congr1 (fun f => f M) h3).
  + by rewrite [LHS]h1.
  + by rewrite /= /kf_update; case: (z) => [z'|] //; case: (kf_inv _ _).
Qed.
Print Assumptions C21_square_root_is_kalman.

(** After an update with a measurement the S, SI, K and y attributes are the KalmanFilter's. *)
Theorem C21_update_attributes : forall (F : realFieldType) (fsqrt fexp flog : F -> F) (n m l : nat)
    (qr : forall p q, M (exactO fsqrt fexp flog) p q -> M (exactO fsqrt fexp flog) p q) pinv
    (d : sq_cfg (exactO fsqrt fexp flog) n m l) (z : 'cV[F]_m) (R2 : 'M[F]_m) (H : 'M[F]_(m,n))
    (k : kf (exactO fsqrt fexp flog) n m l) (s : sq_st (exactO fsqrt fexp flog) n m),
  qr_spec qr -> pinv_spec pinv -> sq_rel k s -> inv_exact k -> R2 \in unitmx ->
  let c := @LUpdate (exactO fsqrt fexp flog) n m l (Some (z : M (exactO fsqrt fexp flog) m 1)) R2 H in
  let k' := fst (kf_step (kf_of (lin_sq c)) k) in
  let s' := sq_step qr pinv (sq_of d c) s in
  [/\ sq_S s' = kf_S k', sq_SI s' = kf_SI k', q_K s' = kf_K k' & q_y s' = kf_y k'].
Proof.
move=> F f1 f2 f3 n m l qr pinv d z R2 H k s hq hp r hi u c k' s'.
have [_ h] := sq_update_rel hq hp (Some z) H d r hi u.
by apply: h.
Qed.
Print Assumptions C21_update_attributes.

(** QR and pseudo-inverse routines meeting the contracts exist over every real closed field;
    newly constructed filters are related. *)
Example C21_hypotheses (F : rcfType) (fsqrt fexp flog : F -> F) (n m l : nat) (fm : F) :
  let k := kf_init (o := exactO fsqrt fexp flog) n m l fm (@mx_inv F m) in
  [/\ @qr_spec F fsqrt fexp flog (@some_qr F), @pinv_spec F fsqrt fexp flog m (@invmx F m),
      sq_rel k (sq_init (exactO fsqrt fexp flog) n m), kf_B k = None & kf_alpha_sq k = (1 : F) /\ inv_exact k].
Proof.
split=> //; first by move=> p q A; exact: some_qrP.
split=> //=; first by rewrite trmx1 mulmx1.
by move=> i j _ _; rewrite /mx_get; case: insub => [i'|//]; case: insub => [j'|//]; rewrite mxE.
Qed.
