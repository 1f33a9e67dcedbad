(** * UnscentedKalmanFilter.rts_smoother on linear systems (C57). *)
From Coq Require Import ZArith QArith.
From mathcomp Require Import all_ssreflect all_algebra.
From Verif Require Import Ops Exact Spec ZmodTac FieldTac LinAlg Cholesky Model_KF Model_UKF Spec_Lin Spec_KF_exact Proof_KF_exact Spec_UKF Spec_UKF_run Prop_Kin Proof_UKF Prop_UKF Proof_UKF_lin Proof_RTS Prop_RTS.
Set Implicit Arguments.
Unset Strict Implicit.
Unset Printing Implicit Defensive.
Import Order.TTheory GRing.Theory Num.Theory.
Local Close Scope Q_scope.
Local Close Scope Z_scope.
Local Open Scope ring_scope.

(** The list recursion, entry by entry. *)
Lemma uk_rts_pass (o : nops) n m k inv dts (c : uk_cfg o n m k) XPs l : uk_rts inv dts c XPs = Ok l ->
  length l = length XPs /\
  (forall xP, List.nth_error XPs (length XPs).-1 = Some xP -> List.nth_error l (length XPs).-1 = Some (xP, mzeros n n)) /\
  forall i, (i.+1 < length XPs)%N -> exists xP xn Pn Kn r, List.nth_error XPs i = Some xP /\
    List.nth_error l i.+1 = Some (xn, Pn, Kn) /\ List.nth_error l i = Some r /\
    uk_rts_step inv (List.nth i dts (uc_dt c)) c xP (xn, Pn) = Ok r.
Proof.
elim: XPs dts l => [|xP XPs IH] dts l.
  by move=> [<-]; do !split=> //.
rewrite -[uk_rts _ _ _ _]/(match uk_rts inv (List.tl dts) c XPs with
      | Err e => Err e | Ok [::] => Ok [:: (xP, mzeros n n)]
      | Ok ((xn, Pn, Kn) :: t) => match uk_rts_step inv (List.hd (uc_dt c) dts) c xP (xn, Pn) with Err e => Err e | Ok r => Ok (r :: (xn, Pn, Kn) :: t) end
      end).
case E: (uk_rts inv (List.tl dts) c XPs) => [l'|] //; have [h1 [h2 h3]] := IH _ _ E.
case: l' h1 h2 h3 {E} => [|[[xn Pn] Kn] t] h1 h2 h3.
  move=> h; have {h} <- := Ok_inj h; case: XPs h1 {IH h2 h3} => // _; split=> //; split=> //.
  by move=> xP' [<-].
case Es: (uk_rts_step _ _ _ _ _) => [r|] // h; have {h} <- := Ok_inj h.
case: XPs h1 h2 h3 {IH} => // xP2 XPs h1 h2 h3.
split; first by congr S.
split; first exact: h2.
case=> [|i] hi.
  exists xP, xn, Pn, Kn, r; do !split=> //.
  by case: (dts) Es.
have [xP' [xn' [Pn' [Kn' [r' [e1 [e2 [e3 e4]]]]]]]] := h3 i hi.
exists xP', xn', Pn', Kn', r'; do !split=> //; move: e4; case: (dts) => [|d ds] //.
by case: (i).
Qed.

Lemma combine_nth A B (a : list A) (b : list B) i x y : List.nth_error (List.combine a b) i = Some (x, y) ->
  List.nth_error a i = Some x /\ List.nth_error b i = Some y.
Proof.
elim: a b i => [|a0 a IH] [|b0 b] [|i] //=; first by move=> [-> ->].
exact: IH.
Qed.
Lemma combine_nth' A B (a : list A) (b : list B) i x y : List.nth_error a i = Some x -> List.nth_error b i = Some y ->
  List.nth_error (List.combine a b) i = Some (x, y).
Proof. elim: a b i => [|a0 a IH] [|b0 b] [|i] //=; [by move=> [->] [->]|exact: IH]. Qed.
Lemma nth_error_ext A (a b : list A) : length a = length b -> (forall i, (i < length a)%N -> List.nth_error a i = List.nth_error b i) -> a = b.
Proof.
elim: a b => [|x a IH] [|y b] //= [e] h.
have [->] : Some x = Some y := h 0%N isT.
by rewrite (IH b) // => i hi; exact: (h i.+1).
Qed.

(** For fx(x, dt) = G(dt) x, symmetric covariances and any exact sigma points: whenever both succeed, the unscented
    smoother and the module-level rts_smoother run with Fs[k] = G(dts[k]) and the filter's own Q in every
    epoch return the same means, covariances and (except in the last place, where it is 0) gains. *)
Theorem C57_ukf_smoother_is_rts : forall (F : realFieldType) (fsqrt fexp flog : F -> F) (n m k : nat)
    (p : points (exactO fsqrt fexp flog) n k) (G : F -> 'M[F]_n) (Q : 'M[F]_n) (R : 'M[F]_m) (dt : F) hx zm rx rz sa inv
    (Xs : list 'rV[F]_n) (Ps : list 'M[F]_n) Qs (dts : list F) l r,
  let EO := exactO fsqrt fexp flog in
  exact_points p -> (forall f, rx = Some f -> forall u v : 'rV[F]_n, f u v = u - v) -> List.Forall (@sym F n) Ps ->
  length dts = length Xs ->
  let c := @uk_config EO n m k Q R dt hx (fun (x : 'rV[F]_n) (d : F) => x *m (G d)^T) p None zm rx rz sa inv in
  @uk_rts_smoother EO n m k (@mx_inv F n) Xs Ps Qs (Some dts) c = Ok l ->
  @f_rts_smoother EO n (@mx_inv F n) (map (fun x : 'rV[F]_n => x^T) Xs) Ps (map G dts) (List.repeat Q (length Xs)) = Ok r ->
  map (fun t => ((fst (fst t) : 'rV[F]_n)^T, snd (fst t) : 'M[F]_n)) l = List.combine (rts_x r) (rts_P r) /\
  (forall i, (i.+1 < length Xs)%N -> List.nth_error (map snd l) i = List.nth_error (rts_K r) i).
Proof.
move=> F fsqrt fexp flog n m k p G Q R dt hx zm rx rz sa inv Xs Ps Qs dts l r EO hp hrx sPs ed c.
rewrite /uk_rts_smoother; case el: (Nat.eqb _ _) => //=.
have {}el : length Xs = length Ps by apply/PeanoNat.Nat.eqb_eq.
move=> hl; have [L1 [L2 L3]] := @uk_rts_pass EO n m k _ _ _ _ _ hl; move=> /rts_run_pass.
rewrite /backward_pass -[length (map _ _)]/(size (map _ _)) size_map -[size Xs]/(length Xs).
move=> [b1 [b2 [b3 [b4 [b5 [b6 b7]]]]]].
have lenc : length (List.combine Xs Ps) = length Xs by rewrite List.combine_length -el PeanoNat.Nat.min_id.
rewrite lenc in L1 L2 L3.
have nthm A B (f : A -> B) s i : List.nth_error (map f s) i = omap f (List.nth_error s i).
  by elim: s i => [|a s IH] [|i] //=.
have eqx (x xn : 'rV[F]_n) (K A : 'M[F]_n) : x + (K *m (xn - x *m A^T)^T)^T = (x^T + K *m (xn^T - A *m x^T))^T.
  by rewrite [in RHS]linearD /= trmxK; congr (_ + (_ *m _)^T); rewrite linearB /= trmx_mul trmxK.
(** One step of the unscented smoother. *)
have step x P xn Pn d t : sym P -> uk_rts_step (o := EO) (@mx_inv F n) d c (x, P) (xn, Pn) = Ok t ->
   let Pp := G d *m P *m (G d)^T + Q in
   Pp \in unitmx /\ let K := P *m (G d)^T *m invmx Pp in
   t = (((x^T : 'cV[F]_n) + K *m ((xn : 'rV[F]_n)^T - G d *m (x : 'rV[F]_n)^T))^T, P + K *m (Pn - Pp) *m K^T, K).
  move=> sP; rewrite /uk_rts_step /c; ucbn.
  case e: (pt_sigmas _ _ _) => [sig|] //; have rep := hp _ _ _ sP e.
  have -> : map_rows (o := EO) (fun x : 'rV[F]_n => x *m (G d)^T) sig (mzeros k n) = affine_rows sig (G d) 0.
    rewrite map_rowsE; apply/matrixP => i j; rewrite !mxE addr0; apply: eq_bigr => a _; by rewrite !mxE.
  rewrite (@C25_affine F fsqrt fexp flog k n n sig _ _ _ _ (G d) 0 (Some Q) rx hrx rep) addr0 /mx_inv.
  case: ifP => // uP h; have {h} <- := Ok_inj h; split=> //.
  have rxE (u v : 'rV[F]_n) : resid (o := EO) rx u v = u - v by rewrite /resid; case e1: rx hrx => [f|] // ->.
  set Pxb := List.fold_left _ _ _.
  have -> : Pxb = P *m (G d)^T.
    case: rep => _ _ <-; rewrite -(wxcov_lin _ _ _ _ 0) /Pxb.
    rewrite [LHS](@fold_sum k _ (fun i => (mx_get (pt_Wc p : 'rV[F]_k) 0 i : F) *:
       ((resid (o := EO) rx (mrow (o := EO) sig i) x : 'rV[F]_n)^T *m
        (resid (o := EO) rx (mrow (o := EO) (affine_rows sig (G d) 0 : M EO k n) i) ((x : 'rV[F]_n) *m (G d)^T : 'rV[F]_n) : 'rV[F]_n)))).
    apply: eq_bigr => i _; rewrite addr0 !rxE !mrowE; congr (_ *: _); exact: (mx_getE (pt_Wc p : 'rV[F]_k) 0 i).
  rewrite rxE /=; congr (_, _, _).
  exact: eqx.
have Psym i P : List.nth_error Ps i = Some P -> sym P.
  by move=> h; apply: (proj1 (List.Forall_forall _ _) sPs); apply: List.nth_error_In h.
(** Backwards along the list. *)
have main j : (j < length Xs)%N -> let i := (length Xs - j.+1)%N in
    exists x P K, List.nth_error l i = Some (x, P, K) /\ List.nth_error (rts_x r) i = Some (x : 'rV[F]_n)^T /\ List.nth_error (rts_P r) i = Some P.
  elim: j => [|j IH] hj i.
    have hi : i = (length Xs).-1 by rewrite /i subn1.
    have [x ex] : exists x, List.nth_error Xs i = Some x.
      by case e: (List.nth_error Xs i) => [x|]; [exists x|move/List.nth_error_None: e => /ssrnat.leP; rewrite hi; case: (length Xs) hj => // q _; rewrite ltnn].
    have [P eP] : exists P, List.nth_error Ps i = Some P.
      by case e: (List.nth_error Ps i) => [P|]; [exists P|move/List.nth_error_None: e => /ssrnat.leP; rewrite -el hi; case: (length Xs) hj => // q _; rewrite ltnn].
    have ec := combine_nth' ex eP; rewrite hi in ec; have := L2 _ ec; rewrite -hi => el0.
    exists x, P, (mzeros n n); split=> //; split.
      by move: b5; rewrite !PeanoNat.Nat.sub_1_r -hi nthm ex.
    by move: b6; rewrite !PeanoNat.Nat.sub_1_r -hi eP.
  have hj' : (j < length Xs)%N by apply: ltn_trans hj.
  have [xn [Pn [Kn [h1 [h2 h3]]]]] := IH hj'.
  have iS : (length Xs - j.+1)%N = i.+1 by rewrite /i -subSn // subSS.
  rewrite iS in h1 h2 h3.
  have hi : (i.+1 < length Xs)%N by rewrite -iS ltn_subrL; case: (length Xs) hj => //.
  have [[x P] [xn' [Pn' [Kn' [t [e1 [e2 [e3 e4]]]]]]]] := L3 i hi.
  rewrite e2 in h1; move: h1 => [? ? ?]; subst xn' Pn' Kn'.
  have [ex eP] := combine_nth e1.
  have [uP tE] := step _ _ _ _ _ _ (Psym _ _ eP) e4.
  have [Fm [Q' [x' [x1 [P' [P1 [Pi [d1 [d2 [d3 [d4 [d5 [d6 [d7 [d8 [d9 _]]]]]]]]]]]]]]]] := b7 i (elimT ssrnat.ltP hi).
  rewrite nthm ex in d3; move: d3 => [/esym x'E]; rewrite eP in d4; move: d4 => [/esym PE]; subst x' P'.
  rewrite h2 in d5; rewrite h3 in d6; move: d5 d6 => [/esym x1E] [/esym P1E]; subst x1 P1.
  have QE : Q' = Q := List.repeat_spec _ _ _ (List.nth_error_In _ _ d2).
  have FE : Fm = G (List.nth i dts (uc_dt c)).
    move: d1; rewrite nthm; case e5: (List.nth_error dts i) => [d|] // [<-].
    by rewrite (List.nth_error_nth _ _ _ e5).
  subst Q' Fm; move: d7; rewrite /mx_inv uP => -[/esym PiE]; subst Pi.
  rewrite e3 tE; do 3!eexists; split; first by [].
  by split; [rewrite d8 trmxK|rewrite d9].
split; last first.
  move=> i hi; have [[x P] [xn [Pn [Kn [t [e1 [e2 [e3 e4]]]]]]]] := L3 i hi.
  have [ex eP] := combine_nth e1.
  have [uP tE] := step _ _ _ _ _ _ (Psym _ _ eP) e4.
  have [Fm [Q' [x' [x1 [P' [P1 [Pi [d1 [d2 [d3 [d4 [d5 [d6 [d7 [d8 [d9 [d10 _]]]]]]]]]]]]]]]]] := b7 i (elimT ssrnat.ltP hi).
  rewrite eP in d4; move: d4 => [/esym PE]; subst P'.
  have QE : Q' = Q := List.repeat_spec _ _ _ (List.nth_error_In _ _ d2).
  have FE : Fm = G (List.nth i dts (uc_dt c)).
    move: d1; rewrite nthm; case e5: (List.nth_error dts i) => [d|] // [<-].
    by rewrite (List.nth_error_nth _ _ _ e5).
  subst Q' Fm; move: d7; rewrite /mx_inv uP => -[/esym PiE]; subst Pi.
  by rewrite nthm e3 tE d10.
apply: nth_error_ext.
  by rewrite -[length (map _ _)]/(size (map _ _)) size_map -[size l]/(length l) L1 List.combine_length b1 b2 PeanoNat.Nat.min_id.
move=> i; rewrite -[length (map _ _)]/(size (map _ _)) size_map -[size l]/(length l) L1 => hi.
have hj : (length Xs - i.+1 < length Xs)%N by rewrite ltn_subrL; case: (length Xs) hi.
have := main _ hj; have -> : (length Xs - (length Xs - i.+1).+1 = i)%N by rewrite -subSn // subSS subKn // ltnW.
move=> [x [P [K [h1 [h2 h3]]]]]; rewrite nthm h1 (combine_nth' h2 h3); by [].
Qed.
Print Assumptions C57_ukf_smoother_is_rts.

(** The hypotheses are met whenever Q is positive definite, the covariances are positive semidefinite and the
    points exist for every positive semidefinite covariance (C24_instance): then neither smoother raises. *)
Theorem C57_never_raises : forall (F : realFieldType) (fsqrt fexp flog : F -> F) (n m k : nat)
    (p : points (exactO fsqrt fexp flog) n k) (G : F -> 'M[F]_n) (Q : 'M[F]_n) (R : 'M[F]_m) (dt : F) hx zm rx rz sa inv
    (Xs : list 'rV[F]_n) (Ps : list 'M[F]_n) Qs (dts : list F),
  let EO := exactO fsqrt fexp flog in
  exact_points p -> (forall f, rx = Some f -> forall u v : 'rV[F]_n, f u v = u - v) ->
  (forall (x : 'rV[F]_n) (P : 'M[F]_n), psd P -> exists sig, pt_sigmas p x (@Mat EO n P) = Ok sig) ->
  List.Forall (@psd F n) Ps -> pd Q -> length Ps = length Xs -> length dts = length Xs ->
  let c := @uk_config EO n m k Q R dt hx (fun (x : 'rV[F]_n) (d : F) => x *m (G d)^T) p None zm rx rz sa inv in
  (exists l, @uk_rts_smoother EO n m k (@mx_inv F n) Xs Ps Qs (Some dts) c = Ok l) /\
  (exists r, @f_rts_smoother EO n (@mx_inv F n) (map (fun x : 'rV[F]_n => x^T) Xs) Ps (map G dts) (List.repeat Q (length Xs)) = Ok r).
Proof.
move=> F fsqrt fexp flog n m k p G Q R dt hx zm rx rz sa inv Xs Ps Qs dts EO hp hrx tot pPs pQ lP ld c.
have pdp P d : psd P -> pd (G d *m P *m (G d)^T + Q) by move=> pP; apply: pdDr => //; exact: psd_congr.
split.
- rewrite /uk_rts_smoother lP PeanoNat.Nat.eqb_refl; cbn [negb opt_or].
  elim: Xs Ps pPs dts {lP ld} => [|x Xs IH] [|P Ps] pPs dts; try by exists [::].
  have [pP pPs'] : psd P /\ List.Forall (@psd F n) Ps by inversion pPs.
  have [l el] := IH _ pPs' (List.tl dts).
  rewrite [List.combine _ _]/= /uk_rts -/(uk_rts _ _ _ _) el; case: l {el} => [|[[xn Pn] Kn] t]; first by eexists.
  rewrite /uk_rts_step /c; ucbn.
  have [sig e] := tot x P pP; rewrite e; have rep := hp _ _ _ (psd_sym pP) e.
  have -> : map_rows (o := EO) (fun x : 'rV[F]_n => x *m (G (List.hd dt dts))^T) sig (mzeros k n) = affine_rows sig (G (List.hd dt dts)) 0.
    rewrite map_rowsE; apply/matrixP => i j; rewrite !mxE addr0; apply: eq_bigr => a _; by rewrite !mxE.
  rewrite (@C25_affine F fsqrt fexp flog k n n sig _ _ _ _ (G (List.hd dt dts)) 0 (Some Q) rx hrx rep) addr0 /mx_inv.
  by rewrite (pd_unit (pdp _ _ pP)); eexists.
- have lX : length (map (fun x : 'rV[F]_n => x^T) Xs) = length Xs := size_map _ _.
  rewrite /f_rts_smoother /rts_run lX lP PeanoNat.Nat.eqb_refl; cbn [negb].
  case: (Xs) lX lP ld => [|x0 Xs'] lX lP ld; first by eexists.
  have N0 : length (x0 :: Xs') = (length Xs').+1 by [].
  apply: rts_loop_ok; cbn [rts_x rts_P]; rewrite ?lX ?lP N0 PeanoNat.Nat.sub_1_r //; try exact: le_n.
  move=> i P hi eP; have pP : psd P by apply: (proj1 (List.Forall_forall _ _) pPs); apply: List.nth_error_In eP.
  have [d ed] : exists d, List.nth_error dts i = Some d.
    case e: (List.nth_error dts i) => [d|]; first by exists d.
    move/List.nth_error_None: e; rewrite ld N0 => /ssrnat.leP h; move/ssrnat.ltP: hi => /= hi.
    by have := leq_trans hi (ltnW h); rewrite ltnn.
  exists (G d), Q, (invmx (G d *m P *m (G d)^T + Q)); split.
    by rewrite -[List.nth_error _ _]/(List.nth_error (List.map G dts) i) List.nth_error_map ed.
  split; first by apply: List.nth_error_repeat; apply/ssrnat.ltP; move/ssrnat.ltP: hi => /= hi; apply: ltn_trans hi _.
  by rewrite /mx_inv (pd_unit (pdp _ _ pP)).
Qed.
Print Assumptions C57_never_raises.
