(** * Multivariate Gaussian algebra, Mahalanobis distance, NEES: C39 (matrix part), C40. *)
From mathcomp Require Import all_ssreflect all_algebra.
From Verif Require Import Ops Exact Spec ZmodTac LinAlg Model_KF Model_Stats Spec_KF_exact Proof_KF Proof_KF_exact.
Set Implicit Arguments.
Unset Strict Implicit.
Unset Printing Implicit Defensive.
Import Order.TTheory GRing.Theory Num.Theory.
Local Open Scope ring_scope.

Section Mult.
Variables (F : realFieldType) (fsqrt fexp flog : F -> F).
Notation EO := (exactO fsqrt fexp flog).
Variable n : nat.
Notation mm := (@multivariate_multiply EO n (@mx_inv F n)).

Lemma mm_ok (m1 : 'cV[F]_n) (C1 : 'M[F]_n) (m2 : 'cV[F]_n) (C2 : 'M[F]_n) : pd C1 -> pd C2 ->
  mm m1 C1 m2 C2 = Ok (xup m1 C1 1%:M C2 m2, Pup C1 1%:M C2).
Proof.
move=> p1 p2; have u : C1 + C2 \in unitmx by apply/pd_unit/pdD => //; exact: pd_psd.
have eS : Smx C1 1%:M C2 = C1 + C2 by rewrite /Smx trmx1 mulmx1 mul1mx.
have e1 : C2 *m invmx (C1 + C2) = 1%:M - C1 *m invmx (C1 + C2).
  by rewrite -[1%:M](mulmxV u) mulmxDl [_ + C2 *m _]addrC addrK.
have eK : Kmx C1 1%:M C2 = C1 *m invmx (C1 + C2) by rewrite /Kmx eS trmx1 mulmx1.
have eP : Pup C1 1%:M C2 = C1 *m invmx (C1 + C2) *m C2.
  have -> : Pup C1 1%:M C2 = (1%:M - Kmx C1 1%:M C2 *m 1%:M) *m C1.
    by apply: Jmx_short; rewrite ?eS //; exact: pd_sym.
  rewrite eK mulmx1 mulmxBl mul1mx.
  have {1}-> : C1 = C1 *m invmx (C1 + C2) *m (C1 + C2) by rewrite mulmxKV.
  by rewrite -mulmxBr [C1 + C2]addrC addrK.
rewrite /multivariate_multiply /mx_inv /= u eP /xup eK mul1mx e1.
by congr (Ok (_, _)); rewrite mulmxBl mul1mx mulmxBr; zmod.
Qed.

Lemma mm_prec (m1 : 'cV[F]_n) (C1 : 'M[F]_n) (m2 : 'cV[F]_n) (C2 : 'M[F]_n) : pd C1 -> pd C2 ->
  [/\ pd (Pup C1 1%:M C2), invmx (Pup C1 1%:M C2) = invmx C1 + invmx C2 &
      invmx (Pup C1 1%:M C2) *m xup m1 C1 1%:M C2 m2 = invmx C1 *m m1 + invmx C2 *m m2].
Proof.
move=> p1 p2.
have pS := pd_Smx 1%:M (pd_psd p1) p2.
have eL : Lmx C1 1%:M C2 = invmx C1 + invmx C2 by rewrite /Lmx trmx1 mul1mx mulmx1.
have eI : invmx (Pup C1 1%:M C2) = Lmx C1 1%:M C2.
  by apply: invJ; first [exact: pd_sym|exact: pd_unit].
have eK : Lmx C1 1%:M C2 *m Kmx C1 1%:M C2 = invmx C2.
  rewrite [LHS]LK ?trmx1 ?mul1mx //; first [exact: pd_sym|exact: pd_unit].
have pL : pd (Lmx C1 1%:M C2) by rewrite eL; apply: pdD; [exact: pd_inv|apply/pd_psd/pd_inv].
split; [by rewrite -[Pup _ _ _]invmxK eI; exact: pd_inv|by rewrite eI|].
rewrite eI /xup mulmxDr mulmxA eK eL mul1mx mulmxDl mulmxBr; zmod.
Qed.
End Mult.

(** ** C39 *)
Theorem C39_multiply_is_kalman_update : forall (F : realFieldType) (fsqrt fexp flog : F -> F) (n l : nat)
    (k : kf (exactO fsqrt fexp flog) n n l) (m2 : 'cV[F]_n) (C2 : 'M[F]_n),
  inv_exact k -> pd (kf_P k : 'M[F]_n) -> pd C2 ->
  let k' := fst (@kf_update (exactO fsqrt fexp flog) n n l (Some m2) (Some (@Mat (exactO fsqrt fexp flog) n C2)) (Some 1%:M) k) in
  @multivariate_multiply (exactO fsqrt fexp flog) n (@mx_inv F n) (kf_x k) (kf_P k) m2 C2 = Ok (kf_x k', kf_P k').
Proof.
move=> F f1 f2 f3 n l k m2 C2 hi p1 p2 k'; rewrite mm_ok //.
have pS := pd_Smx 1%:M (pd_psd p1) p2.
have [_ _ _ _ [_ k1 k2]] := @update_exact F f1 f2 f3 n n l k m2 (Some (@Mat (exactO f1 f2 f3) n C2)) (Some 1%:M) hi (pd_unit pS).
by rewrite /k' k1 k2.
Qed.
Print Assumptions C39_multiply_is_kalman_update.

Theorem C39_multiply_adds_precisions : forall (F : realFieldType) (fsqrt fexp flog : F -> F) (n : nat)
    (m1 m2 : 'cV[F]_n) (C1 C2 : 'M[F]_n), pd C1 -> pd C2 ->
  exists m C, @multivariate_multiply (exactO fsqrt fexp flog) n (@mx_inv F n) m1 C1 m2 C2 = Ok (m, C) /\
  [/\ pd (C : 'M[F]_n), invmx (C : 'M[F]_n) = invmx C1 + invmx C2 &
      invmx (C : 'M[F]_n) *m m = invmx C1 *m m1 + invmx C2 *m m2].
Proof.
move=> F f1 f2 f3 n m1 m2 C1 C2 p1 p2; exists (xup m1 C1 1%:M C2 m2), (Pup C1 1%:M C2); split.
  exact: mm_ok.
exact: mm_prec.
Qed.
Print Assumptions C39_multiply_adds_precisions.

Theorem C39_multiply_commutative_associative : forall (F : realFieldType) (fsqrt fexp flog : F -> F) (n : nat)
    (m1 m2 m3 : 'cV[F]_n) (C1 C2 C3 : 'M[F]_n), pd C1 -> pd C2 -> pd C3 ->
  let mm := @multivariate_multiply (exactO fsqrt fexp flog) n (@mx_inv F n) in
  mm m1 C1 m2 C2 = mm m2 C2 m1 C1 /\
  rbind (mm m1 C1 m2 C2) (fun a => mm (fst a) (snd a) m3 C3) =
  rbind (mm m2 C2 m3 C3) (fun b => mm m1 C1 (fst b) (snd b)).
Proof.
move=> F f1 f2 f3 n m1 m2 m3 C1 C2 C3 p1 p2 p3 mm.
have det (C C' : 'M[F]_n) (m m' : 'cV[F]_n) : pd C -> pd C' -> invmx C = invmx C' -> invmx C *m m = invmx C' *m m' -> (m, C) = (m', C').
  move=> pC pC' e em; have eC : C = C' by rewrite -[C]invmxK e invmxK.
  subst C'; congr (_, _); have := congr1 (mulmx C) em; by rewrite !mulKVmx ?pd_unit.
have [q12 i12 w12] := mm_prec m1 m2 p1 p2; have [q21 i21 w21] := mm_prec m2 m1 p2 p1.
have [q23 i23 w23] := mm_prec m2 m3 p2 p3.
have [qa ia wa] := mm_prec (xup m1 C1 1%:M C2 m2) m3 q12 p3.
have [qb ib wb] := mm_prec m1 (xup m2 C2 1%:M C3 m3) p1 q23.
rewrite /mm !mm_ok //=; split.
- congr Ok; apply: det => //; rewrite ?w12 ?w21 ?i12 ?i21 addrC //.
- rewrite !mm_ok //; congr Ok; apply: det => //.
  + by rewrite ia ib i12 i23 addrA.
  + by rewrite wa wb w12 w23 addrA.
Qed.
Print Assumptions C39_multiply_commutative_associative.

(** ** C40.  [Num.sqrt] over a real closed field is the square root. *)
Section Maha.
Variables (F : rcfType) (fexp flog : F -> F).
Notation EO := (exactO (@Num.sqrt F) fexp flog).
Variable n : nat.
Notation maha := (@mahalanobis EO n (@mx_inv F n)).
Notation L := (@col_list EO n).

Lemma L_length (v : 'cV[F]_n) : length (L v) = n.
Proof. by rewrite /col_list List.map_length List.seq_length. Qed.

Lemma L_nth (v : 'cV[F]_n) (i : 'I_n) d : List.nth i (L v) d = v i 0.
Proof.
rewrite /col_list (List.nth_indep _ d (@mget EO n 1 v 0%N 0%N)); last by rewrite List.map_length List.seq_length; apply/ssrnat.ltP.
rewrite (List.map_nth (fun i => @mget EO n 1 v i 0%N)) List.seq_nth; last by apply/ssrnat.ltP.
by rewrite /= -[0%N]/(nat_of_ord (0 : 'I_1)) mx_getE.
Qed.

Lemma col_sub (x m : 'cV[F]_n) :
  @col_of EO n (List.map (fun p => ssub EO (fst p) (snd p)) (List.combine (L x) (L m))) = x - m.
Proof.
apply/matrixP => i j; rewrite ord1 !mxE.
have h : (i < length (List.combine (L x) (L m)))%coq_nat.
  by rewrite List.combine_length !L_length PeanoNat.Nat.min_id; apply/ssrnat.ltP.
rewrite (List.nth_indep _ _ (ssub EO (fst (0 : F, 0 : F)) (snd (0 : F, 0 : F)))); last by rewrite List.map_length.
rewrite (List.map_nth (fun p : F * F => ssub EO p.1 p.2)) List.combine_nth ?L_length // /=.
by rewrite !L_nth.
Qed.

Lemma maha_ok (x m : 'cV[F]_n) (C : 'M[F]_n) : pd C ->
  maha (L x) (L m) C = Ok (Num.sqrt (qf (invmx C) (x - m))).
Proof.
move=> pC; rewrite /mahalanobis !L_length PeanoNat.Nat.eqb_refl /mx_inv pd_unit //.
rewrite col_sub /= -[0%N]/(nat_of_ord (0 : 'I_1)) mx_getE -/(qf _ _).
by rewrite ltNge (proj2 (pd_psd (pd_inv pC))).
Qed.
End Maha.

Theorem C40_mahalanobis : forall (F : rcfType) (fexp flog : F -> F) (n : nat) (x m : 'cV[F]_n) (C : 'M[F]_n), pd C ->
  exists d : F, @mahalanobis (exactO (@Num.sqrt F) fexp flog) n (@mx_inv F n) (@col_list (exactO (@Num.sqrt F) fexp flog) n x)
     (@col_list (exactO (@Num.sqrt F) fexp flog) n m) C = Ok d /\
  [/\ 0 <= d, d ^+ 2 = ((x - m)^T *m invmx C *m (x - m)) 0 0, d = 0 <-> x = m &
   @mahalanobis (exactO (@Num.sqrt F) fexp flog) n (@mx_inv F n) (@col_list (exactO (@Num.sqrt F) fexp flog) n m)
     (@col_list (exactO (@Num.sqrt F) fexp flog) n x) C = Ok d].
Proof.
move=> F f1 f2 n x m C pC; exists (Num.sqrt (qf (invmx C) (x - m))).
have q0 v : 0 <= qf (invmx C) v := proj2 (pd_psd (pd_inv pC)) v.
split; first exact: maha_ok.
split; first exact: sqrtr_ge0.
- by rewrite sqr_sqrtr.
- split=> [e|->]; last by rewrite subrr qf0r sqrtr0.
  apply/eqP; rewrite -subr_eq0; apply/eqP; apply: (pd_eq0 (pd_inv pC)).
  by rewrite -[LHS]sqr_sqrtr // e expr0n.
- by rewrite maha_ok // -opprB qfN.
Qed.
Print Assumptions C40_mahalanobis.

(** Invariance under an invertible affine change of coordinates. *)
Theorem C40_change_of_coordinates : forall (F : rcfType) (fexp flog : F -> F) (n : nat) (x m b : 'cV[F]_n) (C T : 'M[F]_n),
  pd C -> T \in unitmx ->
  let O := exactO (@Num.sqrt F) fexp flog in
  @mahalanobis O n (@mx_inv F n) (@col_list O n (T *m x + b)) (@col_list O n (T *m m + b)) (T *m C *m T^T) =
  @mahalanobis O n (@mx_inv F n) (@col_list O n x) (@col_list O n m) C.
Proof.
move=> F f1 f2 n x m b C T pC uT O; rewrite !maha_ok //; last exact: pd_congr.
congr (Ok (Num.sqrt _)).
have -> : T *m x + b - (T *m m + b) = T *m (x - m) by rewrite mulmxBr; zmod.
have -> : invmx C = T^T *m invmx (T *m C *m T^T) *m T.
  rewrite !invmxM ?unitmx_mul ?unitmx_tr ?uT ?pd_unit //.
  by rewrite !mulmxA mulmxV ?unitmx_tr // mul1mx mulmxKV.
by rewrite /qf trmxM !mulmxA.
Qed.
Print Assumptions C40_change_of_coordinates.

(** The triangle inequality. *)
Section Triangle.
Variables (F : rcfType) (n : nat) (A : 'M[F]_n).
Hypothesis pA : pd A.
Notation q := (qf A).
Notation nm v := (Num.sqrt (q v)).
Let b (u v : 'cV[F]_n) := (u^T *m A *m v) 0 0.

Lemma q0 v : 0 <= q v. Proof. exact: (proj2 (pd_psd pA)). Qed.
Lemma bC u v : b v u = b u v.
Proof.
rewrite /b -[X in fun_of_matrix X 0 0 = _]tr11 !trmxM trmxK (pd_sym pA) mulmxA //.
Qed.
Lemma qfDl u v : q (u + v) = q u + b u v *+ 2 + q v.
Proof.
rewrite mulr2n -{2}bC /b /qf trmxD !mulmxDl !mulmxDr !addmxE; zmod.
Qed.
Lemma qfZr a v : q (a *: v) = a ^+ 2 * q v.
Proof. by rewrite /qf trmxZ !scalemxAl' !scalemxAr' !scalemxE mulrA. Qed.
Lemma bZr a u v : b u (a *: v) = a * b u v.
Proof. by rewrite /b !scalemxAr' scalemxE. Qed.

(** sqrt(q u) sqrt(q v) >= b u v: from 0 <= q (|v| u - |u| v). *)
Lemma cauchy u v : b u v <= nm u * nm v.
Proof.
have [/eqP u0|u0] := boolP (nm u == 0).
  have -> : u = 0 by apply: (pd_eq0 pA); rewrite -[LHS]sqr_sqrtr ?q0 // u0 expr0n.
  by rewrite /b trmx0 !mul0mx mxE mulr_ge0 ?sqrtr_ge0.
have [/eqP v0|v0] := boolP (nm v == 0).
  have -> : v = 0 by apply: (pd_eq0 pA); rewrite -[LHS]sqr_sqrtr ?q0 // v0 expr0n.
  by rewrite /b mulmx0 mxE mulr_ge0 ?sqrtr_ge0.
have pu : 0 < nm u by rewrite lt_neqAle eq_sym u0 sqrtr_ge0.
have pv : 0 < nm v by rewrite lt_neqAle eq_sym v0 sqrtr_ge0.
have : 0 <= q (nm v *: u + (- nm u) *: v) := q0 _.
rewrite qfDl !qfZr bZr bC bZr bC sqrrN !sqr_sqrtr ?q0 // mulNr ?mulrN.
have -> : q v * q u + - (nm u * (nm v * b u v)) *+ 2 + q u * q v = (nm u * nm v * (nm u * nm v - b u v)) *+ 2.
  rewrite mulrBr mulrnBl [nm u * nm v * (nm u * nm v)]mulrACA -!expr2 !sqr_sqrtr ?q0 //.
  by rewrite [q v * q u]mulrC mulNrn !mulr2n mulrA; zmod.
by rewrite pmulrn_lge0 // pmulr_rge0 ?mulr_gt0 // subr_ge0.
Qed.

Lemma triangle u v : nm (u + v) <= nm u + nm v.
Proof.
rewrite -(@ler_pexpn2r _ 2) ?nnegrE ?addr_ge0 ?sqrtr_ge0 //.
rewrite sqrrD !sqr_sqrtr ?q0 // qfDl ler_add2r ler_add2l ler_muln2r /=.
exact: cauchy.
Qed.
End Triangle.

Theorem C40_triangle : forall (F : rcfType) (fexp flog : F -> F) (n : nat) (x y z : 'cV[F]_n) (C : 'M[F]_n) (dxz dxy dyz : F),
  pd C ->
  let O := exactO (@Num.sqrt F) fexp flog in let d a b := @mahalanobis O n (@mx_inv F n) (@col_list O n a) (@col_list O n b) C in
  d x z = Ok dxz -> d x y = Ok dxy -> d y z = Ok dyz -> dxz <= dxy + dyz.
Proof.
move=> F f1 f2 n x y z C a b c pC O d; rewrite /d !maha_ok // => -[<-] [<-] [<-].
have -> : x - z = (x - y) + (y - z) by zmod.
exact/triangle/pd_inv.
Qed.
Print Assumptions C40_triangle.

(** Shape and singularity errors, for every arithmetic. *)
Theorem C40_errors : forall (o : nops) (n : nat) linv (x mean : list (sc o)) (cov : M o n n),
  (length x <> length mean -> mahalanobis linv x mean cov = Err ValueError) /\
  (length x = length mean -> linv cov = None -> mahalanobis linv x mean cov = Err LinAlgError) /\
  (forall d, mahalanobis linv x mean cov = Ok d -> length x = n /\ length mean = n).
Proof.
move=> o n linv x mean cov; rewrite /mahalanobis; split; [|split].
- by move=> /PeanoNat.Nat.eqb_neq ->.
- by move=> -> ->; rewrite PeanoNat.Nat.eqb_refl.
- move=> d; case e1: (PeanoNat.Nat.eqb _ _) => //=; case: (linv cov) => // i.
  case e2: (PeanoNat.Nat.eqb _ _) => //= _.
  by move/PeanoNat.Nat.eqb_eq: e1 => <-; move/PeanoNat.Nat.eqb_eq: e2 => ->.
Qed.
Print Assumptions C40_errors.

(** NEES is the list of squared Mahalanobis distances between truth and estimate. *)
Theorem C40_nees : forall (F : rcfType) (fexp flog : F -> F) (n : nat) (w : list ('cV[F]_n * 'cV[F]_n * 'M[F]_n)),
  let O := exactO (@Num.sqrt F) fexp flog in
  List.Forall (fun t => pd t.2) w ->
  exists e, @NEES O n (@mx_inv F n) (List.map (fun t => t.1.1) w) (List.map (fun t => t.1.2) w) (List.map snd w) = Ok e /\
  List.Forall2 (fun (t : 'cV[F]_n * 'cV[F]_n * 'M[F]_n) (a : F) => exists d : F,
     @mahalanobis O n (@mx_inv F n) (@col_list O n t.1.1) (@col_list O n t.1.2) t.2 = Ok d /\ a = d ^+ 2) w e.
Proof.
move=> F f1 f2 n w O h; rewrite /NEES !List.map_length PeanoNat.Nat.eqb_refl /=.
elim: h => [|[[x m] C] w0 /= pC _ [e [ee h]]]; first by exists nil.
rewrite {1}/mx_inv pd_unit // ee /=; exists (qf (invmx C) (x - m) :: e)%list; split.
  by rewrite -[0%N]/(nat_of_ord (0 : 'I_1)) mx_getE.
constructor=> //; exists (Num.sqrt (qf (invmx C) (x - m))).
by rewrite sqr_sqrtr ?(proj2 (pd_psd (pd_inv pC))) //; split; first exact: maha_ok.
Qed.
Print Assumptions C40_nees.

(** The hypotheses are met: a non-diagonal 2x2 covariance. *)
Example C40_hypotheses : forall F : rcfType, pd (\matrix_(i < 2, j < 2) (if i == j then 2%:R else 1) : 'M[F]_2).
Proof.
move=> F; set A := \matrix_(i < 2, j < 2) _.
have -> : A = 1%:M + (\col_(i < 2) 1) *m (\col_(i < 2) 1)^T.
  apply/matrixP => i j; rewrite !mxE big_ord1 !mxE mulr1.
  by case: (i == j); rewrite ?addr0 ?add0r // -mulr2n.
apply: pdD; [exact: pd1|exact: psd_gram].
Qed.
