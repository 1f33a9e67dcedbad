(** * FixedLagSmoother in exact arithmetic (C49): it is a KalmanFilter, and what its newest smoothed entry is. *)
From mathcomp Require Import all_ssreflect all_algebra.
From Verif Require Import Ops Exact Spec ZmodTac LinAlg Model_KF Spec_KF_exact Proof_KF_exact Spec_UKF_run Model_FLS Spec_FLS Prop_FLS.
Set Implicit Arguments.
Unset Strict Implicit.
Unset Printing Implicit Defensive.
Import Order.TTheory GRing.Theory Num.Theory.
Local Open Scope ring_scope.

(** A KalmanFilter driven with the same matrices: predict(u, B, F, Q) then update(z, R, H) per measurement; the state, the
    estimates, the first exception. *)
Fixpoint kf_cycles (o : nops) (n m l : nat) (c : fls_cfg o n m l) (zs : list (M o m 1 * option (M o l 1))) (k : kf o n m l) :
    kf o n m l * list (M o n 1) * option exn :=
  match zs with
  | [::] => (k, [::], None)
  | (z, u) :: r =>
      match kf_update (Some z) (Some (Mat (fl_R c))) (Some (fl_H c)) (kf_predict u (Some (fl_B c)) (Some (fl_F c)) (Some (Mat (fl_Q c))) k) with
      | (k, Some e) => (k, [::], Some e)
      | (k, None) => let '(k', xs, e) := kf_cycles c r k in (k', kf_x k :: xs, e)
      end
  end.

Section E.
Variable F : realFieldType.
Variables (fsqrt fexp flog : F -> F).
Notation EO := (exactO fsqrt fexp flog).
Variables n m l : nat.

Lemma est_inj (k : kf EO n m l) a b a1 b1 a2 b2 : kf_est k = mkEst a b a1 b1 a2 b2 -> kf_x k = a /\ kf_P k = b.
Proof. by rewrite /kf_est => -[-> -> _ _ _ _]. Qed.

Lemma cycle_kf (c : fls_cfg EO n m l) z u (k k1 : kf EO n m l) r :
  kf_B k = None -> (kf_alpha_sq k : F) = 1 -> kf_inv k = fl_inv c ->
  kf_predict u (Some (fl_B c)) (Some (fl_F c)) (Some (Mat (fl_Q c))) k = k1 ->
  kf_update (Some z) (Some (Mat (fl_R c))) (Some (fl_H c)) k1 = r ->
  match cyc c (kf_x k) (kf_P k) z u with
  | None => snd r = Some LinAlgError
  | Some t => [/\ snd r = None, kf_x (fst r) = k_x t, kf_P (fst r) = k_P t & 
                  [/\ kf_B (fst r) = None, (kf_alpha_sq (fst r) : F) = 1 & kf_inv (fst r) = fl_inv c]]
  end.
Proof.
move=> hB ha hi h1 h2.
have [g1 [g2 [g3 g4]]] := @est_predict EO n m l (fl_F c) (fl_Q c) (Some (fl_B c)) u k hB.
rewrite {}h1 in g1 g2 g3 g4; have [hx hP0] := est_inj g1.
have hP : (kf_P k1 : 'M[F]_n) = (fl_F c : 'M[F]_n) *m kf_P k *m (fl_F c : 'M[F]_n)^T + fl_Q c.
  by rewrite hP0 ha; congr (_ + _); exact: scale1r.
clear hP0 g1; move: (@est_update EO n m l z (fl_R c) (fl_H c) k1 r h2) => {h2}; cbv zeta; rewrite {}g2 {}g3 {}g4 hi ha hP hx.
have -> : apply_control (o := EO) (fl_F c) (kf_x k) (Some (fl_B c)) u =
  match u with None => mdot (fl_F c) (kf_x k) | Some u => madd (mdot (fl_F c) (kf_x k)) (mdot (fl_B c) u) end by case: (u).
rewrite /cyc /cycle.
set x' : M EO n 1 := match u with Some _ => _ | None => _ end.
set P' : 'M[F]_n := _ + _.
have hS : madd (mdot (fl_H c) (mdot (P' : M EO n n) (mtr (fl_H c)))) (fl_R c) = madd (mdot (mdot (fl_H c) (P' : M EO n n)) (mtr (fl_H c))) (fl_R c) :> M EO m m.
  by congr (_ + _); exact: mulmxA.
rewrite hS; change (madd (mdot (mdot (fl_F c) (kf_P k)) (mtr (fl_F c))) (fl_Q c)) with (P' : M EO n n).
case: (fl_inv c _) => [SI|]; last by case=> [[->]].
by case=> -[h1 /est_inj [h2 h3]] [h4 [h5 h6]]; split.
Qed.

Lemma cycles_pass (c : fls_cfg EO n m l) zs : forall (k : kf EO n m l),
  kf_B k = None -> (kf_alpha_sq k : F) = 1 -> kf_inv k = fl_inv c ->
  let r := kf_cycles c zs k in
  let p := pass c zs (kf_x k) (kf_P k) in
  [/\ snd (fst r) = List.map (fun t => k_x t) (fst p), snd r = (if snd p then None else Some LinAlgError) &
      snd p -> kf_x (fst (fst r)) = List.last (List.map (fun t => k_x t) (fst p)) (kf_x k) /\
               kf_P (fst (fst r)) = List.last (List.map (fun t => k_P t) (fst p)) (kf_P k)].
Proof.
have hlast : forall A (a d : A) r, List.last (a :: r) d = List.last r a.
  move=> A a d r; elim: r a d => [|b r IH] a d //; change (List.last (b :: r) d = List.last (b :: r) a).
  by rewrite !IH.
elim: zs => [|[z u] zs IH] k hB ha hi; first by [].
move: (@cycle_kf c z u k _ _ hB ha hi erefl erefl); cbn [kf_cycles pass]; move: (kf_update _ _ _ _) => r.
case: (cyc _ _ _ _ _) => [t|].
- case: r => [k1 e] /= [-> e1 e2 [e3 e4 e5]]; have := IH k1 e3 e4 e5; rewrite e1 e2.
  case: (kf_cycles _ _ _) => [[k' xs] e']; case: (pass _ _ _ _) => [ks ok] /= [-> -> h]; split=> // /h [-> ->].
  by split; symmetry; [exact: (hlast _ (k_x t)) | exact: (hlast _ (k_P t))].
- by case: r => [k1 e] /= ->; split.
Qed.
Lemma newest_eq (c : fls_cfg EO n m l) (x : 'cV[F]_n) (P : 'M[F]_n) z u t :
  fl_inv c = @mx_inv F m -> sym P -> sym (fl_Q c : 'M[F]_n) -> sym (fl_R c : 'M[F]_m) ->
  cyc c x P z u = Some t ->
  let H : 'M[F]_(m, n) := fl_H c in
  let K := Kmx ((fl_F c : 'M[F]_n) *m P *m (fl_F c : 'M[F]_n)^T + fl_Q c) H (fl_R c) in
  (k_pre t : 'cV[F]_n) + bump t 0 = (k_x t : 'cV[F]_n) - K *m H *m K *m (k_y t : 'cV[F]_m).
Proof.
move=> hi sP sQ sR + H K; rewrite /cyc /cycle hi.
set x' : M EO n 1 := match u with Some _ => _ | None => _ end.
set P' : M EO n n := (_ + _)%np.
have eP : (P' : 'M[F]_n) = (fl_F c : 'M[F]_n) *m P *m (fl_F c : 'M[F]_n)^T + fl_Q c by [].
have sP' : sym (P' : 'M[F]_n) by rewrite eP /sym trmxD sQ sym_congr.
rewrite -eP in K *; clearbody P'.
have eS : madd (mdot (mdot (fl_H c) P') (mtr (fl_H c))) (fl_R c) = Smx P' H (fl_R c) :> 'M[F]_m by rewrite /Smx mulmxA.
rewrite eS /mx_inv; case uS: (_ \in unitmx) => // -[<-]; rewrite /bump; cbn [k_pre k_x k_P k_A k_W k_y times].
pose y : 'cV[F]_m := (z : 'cV[F]_m) - H *m (x' : 'cV[F]_n).
have eJ : Jmx P' H (fl_R c) K = (1%:M - K *m H) *m P' by exact: Jmx_short.
have eK : (P' : 'M[F]_n) *m H^T *m invmx (Smx P' H (fl_R c)) = K by [].
change ((x' : 'cV[F]_n) + Jmx P' H (fl_R c) K *m (H^T *m invmx (Smx P' H (fl_R c))) *m y = (x' : 'cV[F]_n) + K *m y - K *m H *m K *m y).
by rewrite eJ -[_ *m (P' : 'M[F]_n) *m _]mulmxA [(P' : 'M[F]_n) *m (_ *m _)]mulmxA eK mulmxBl mul1mx mulmxBl addrA.
Qed.
End E.

(** ** x and P are the KalmanFilter's.  For every history, the estimates of the smoother and its first exception are those of
    a KalmanFilter (fading factor 1) driven with the same matrices; without an exception so are the final x and P. *)
Theorem C49_is_kalman : forall (F : realFieldType) (fsqrt fexp flog : F -> F) (n m l : nat)
  (c : fls_cfg (exactO fsqrt fexp flog) n m l) N zs s xs (k : kf (exactO fsqrt fexp flog) n m l) s' hs e,
  fl_N c = Some N -> fl_xs s = Some xs -> fl_count s = length xs ->
  kf_x k = fl_x s -> kf_P k = fl_P s -> kf_B k = None -> (kf_alpha_sq k : F) = 1 -> kf_inv k = fl_inv c ->
  fls_run c zs s = (s', hs, e) ->
  exists k', kf_cycles c zs k = (k', hs, e) /\ (e = None -> kf_x k' = fl_x s' /\ kf_P k' = fl_P s').
Proof.
move=> F f1 f2 f3 n m l c N zs s xs k s' hs e hN hx hc ex eP hB ha hi hr.
have := @run_smoothed _ n m l c N zs hN s xs hx hc; have := cycles_pass zs hB ha hi; rewrite ex eP hr.
case: (kf_cycles _ _ _) => [[k' ys] e']; case: (pass _ _ _ _) => [ks ok] /= [-> -> hl] [s1 [[-> -> ->] [_ [_ [h1 h2]]]]].
by exists k'; split=> //; case: ok hl => // /(_ erefl) [-> ->].
Qed.
Print Assumptions C49_is_kalman.

(** ** The newest smoothed entry is not the estimate x, as a fixed lag smoother's would be: from step N on it is
    x - K H K y, because the loop starts from the posterior covariance. *)
Theorem C49_newest_entry : forall (F : realFieldType) (fsqrt fexp flog : F -> F) (n m l : nat)
  (c : fls_cfg (exactO fsqrt fexp flog) n m l) N z u (s : fls (exactO fsqrt fexp flog) n m) xs s',
  fl_N c = Some N -> (0 < N)%N -> fl_xs s = Some xs -> fl_count s = length xs -> (N <= length xs)%N ->
  fl_inv c = @mx_inv F m ->
  sym (fl_P s : 'M[F]_n) -> sym (fl_Q c : 'M[F]_n) -> sym (fl_R c : 'M[F]_m) ->
  fls_smooth c z u s = (s', None) ->
  let H : 'M[F]_(m, n) := fl_H c in
  let K := Kmx ((fl_F c : 'M[F]_n) *m fl_P s *m (fl_F c : 'M[F]_n)^T + fl_Q c) H (fl_R c) in
  exists ys, fl_xs s' = Some ys /\ List.nth_error ys (length xs) = Some ((fl_x s' : 'cV[F]_n) - K *m H *m K *m (fl_y s' : 'cV[F]_m)).
Proof.
move=> F f1 f2 f3 n m l c N z u s xs s' hN N0 hx hc hNk hi sP sQ sR hs H K.
move: (@smooth_step _ n m l c N z u s xs hN hx hc); rewrite hs; case E: (cyc _ _ _ _ _) => [t|]; last by case=> ? [].
case=> S [->]; cbn [fl_xs fl_x fl_y]; exists (stored N t xs); split=> //.
have [_ /(_ (length xs)) ->] := stored_entries N t xs.
cbv zeta; rewrite PeanoNat.Nat.eqb_refl.
have -> : PeanoNat.Nat.ltb (length xs) N = false by apply/PeanoNat.Nat.ltb_ge/ssrnat.leP.
have -> : PeanoNat.Nat.eqb N 0 = false by apply/PeanoNat.Nat.eqb_neq => h; rewrite h in N0.
by congr Some; exact: (newest_eq hi sP sQ sR E).
Qed.
Print Assumptions C49_newest_entry.
