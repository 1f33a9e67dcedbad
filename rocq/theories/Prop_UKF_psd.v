(** * UnscentedKalmanFilter with any functions: the covariance stays positive semidefinite when the covariance
    weights are nonnegative (C25, C26). *)
From Coq Require Import ZArith QArith.
From mathcomp Require Import all_ssreflect all_algebra.
From Verif Require Import Ops Exact Spec ZmodTac FieldTac LinAlg Model_KF Model_UKF Spec_UKF Spec_UKF_run Prop_Kin Proof_UKF Prop_UKF Proof_UKF_lin Proof_Moments.
Set Implicit Arguments.
Unset Strict Implicit.
Unset Printing Implicit Defensive.
Import Order.TTheory GRing.Theory Num.Theory.
Local Close Scope Q_scope.
Local Close Scope Z_scope.
Local Open Scope ring_scope.

Section S.
Variable F : realFieldType.
Variables (fsqrt fexp flog : F -> F).
Notation EO := (exactO fsqrt fexp flog).
Variables n m k : nat.
Variable p : points EO n k.

(** A history of calls, each with its own fx, hx, Q, R, mean functions and sum function; the state if no call raised. *)
Fixpoint uk_run (cs : list (uk_cfg EO n m k * uk_call EO n m)) (s : uk_st EO n m k) : option (uk_st EO n m k) :=
  match cs with
  | nil => Some s
  | ca :: cs => match uk_step ca.1 ca.2 s with (s, None) => uk_run cs s | (_, Some _) => None end
  end.
Fixpoint uk_one_per_predict (predicted : bool) (cs : list (uk_cfg EO n m k * uk_call EO n m)) : bool :=
  match cs with
  | nil => true
  | (_, UPredict _ _) :: cs => uk_one_per_predict true cs
  | (_, UUpdate None _ _) :: cs => uk_one_per_predict predicted cs
  | (_, UUpdate (Some _) _ _) :: cs => predicted && uk_one_per_predict false cs
  end.
(** What a call's configuration must satisfy: the points p and their weights, differences as residuals,
    positive semidefinite noise, exact inversion.  Nothing about fx, hx, x_mean, z_mean, state_add. *)
Definition uk_psd_call (c : uk_cfg EO n m k * uk_call EO n m) : Prop :=
  let cf := c.1 in
  [/\ uc_points cf = p, uc_Wm cf = pt_Wm p, uc_Wc cf = pt_Wc p &
      [/\ forall u v : 'rV[F]_n, resid (uc_residual_x cf) u v = u - v, forall u v : 'rV[F]_m, resid (uc_residual_z cf) u v = u - v,
          forall A : 'M[F]_m, uc_inv cf A = mx_inv A, psd (uc_Q cf : 'M[F]_n) &
          match c.2 with UPredict _ _ => True | UUpdate _ R _ => psd (sm_or (uc_R cf) R : 'M[F]_m) end]].
End S.

Lemma resid_sum (F : realFieldType) (fsqrt fexp flog : F -> F) (k q : nat) (r : option (M (exactO fsqrt fexp flog) 1 q -> M (exactO fsqrt fexp flog) 1 q -> M (exactO fsqrt fexp flog) 1 q))
   (wc : 'rV[F]_k) (X : 'M[F]_(k, q)) (x : 'rV[F]_q) :
  (forall u v : 'rV[F]_q, resid r u v = u - v) ->
  (if r is Some f then \sum_i wc 0 i *: ((f (matrix.row i X) x : 'rV[F]_q)^T *m (f (matrix.row i X) x : 'rV[F]_q)) else wcov wc X x) = wcov wc X x.
Proof.
case: r => [f|] // h; apply: eq_bigr => i _; by rewrite [f _ _]h.
Qed.

Theorem C26_psd : forall (F : realFieldType) (fsqrt fexp flog : F -> F) (n m k : nat) (p : points (exactO fsqrt fexp flog) n k)
    (cs : list (uk_cfg (exactO fsqrt fexp flog) n m k * uk_call (exactO fsqrt fexp flog) n m)) (s s' : uk_st (exactO fsqrt fexp flog) n m k),
  exact_points p -> (forall i, 0 <= (pt_Wc p : 'rV[F]_k) 0 i) ->
  psd (u_P s : 'M[F]_n) -> List.Forall (@uk_psd_call F fsqrt fexp flog n m k p) cs -> uk_one_per_predict false cs = true ->
  uk_run cs s = Some s' -> psd (u_P s' : 'M[F]_n).
Proof.
move=> F fsqrt fexp flog n m k p cs s s' hp w0 pP hcs.
set EO := exactO fsqrt fexp flog in cs s s' pP hcs *.
suff G : forall b, (b = true -> pt_sigmas p (u_x s) (Mat (u_P s)) = Ok (u_sigmas_f s)) ->
    uk_one_per_predict b cs = true -> uk_run cs s = Some s' -> psd (u_P s' : 'M[F]_n) by apply: G.
elim: hcs s pP => [|[cf a] cs' [/= e1 e2 e3 [rx rz hi pQ hR]] _ IH] s pP b hb wf; first by move=> [<-].
cbn [uk_run fst snd]; case E: (uk_step cf a s) => [s1 [e|]] // run.
case: a hR wf E => [dt fx|[z|] R hx] hR wf E.
- move: E; unfold uk_step; rewrite /uk_predict; case e: (uk_process_sigmas _ _ _ _) => [sf|] //.
  have := @utE F fsqrt fexp flog k n sf (uc_Wm cf) (uc_Wc cf) (Some (uc_Q cf)) (uc_x_mean cf) (uc_residual_x cf).
  cbv zeta; rewrite resid_sum //; case: (unscented_transform _ _ _ _ _ _) => [x P] [_ PE].
  case es: (pt_sigmas _ _ _) => [sf'|] // [s1E].
  apply: (IH s1 _ true) => //; first by rewrite -s1E; cbn [u_P]; rewrite PE e3; apply: psdD => //; exact: wcov_psd.
  by move=> _; rewrite -s1E; cbn [u_P u_x u_sigmas_f]; rewrite -e1.
- move: wf => /andP[/hb fr wf]; move: E; unfold uk_step; rewrite /uk_update.
  set sh := map_rows _ _ _; set Rm := sm_or _ _.
  have := @utE F fsqrt fexp flog k m sh (uc_Wm cf) (uc_Wc cf) (Some Rm) (uc_z_mean cf) (uc_residual_z cf).
  cbv zeta; rewrite resid_sum //; set zz := (if uc_z_mean cf is Some f then _ else _).
  case: (unscented_transform _ _ _ _ _ _) => [zp S] [zE SE].
  rewrite hi /mx_inv; case uS: (_ \in unitmx) => //.
  set Pxz := uk_cross_variance _ _ _ _ _.
  have {}rep := hp _ _ _ (psd_sym pP) fr; case: (rep) => _ _ PE.
  have PxzE : Pxz = wxcov (pt_Wc p) (u_sigmas_f s) (u_x s) sh zp.
    rewrite /Pxz /uk_cross_variance /wxcov.
    rewrite [LHS](@fold_sum k _ (fun i => (mx_get (uc_Wc cf : 'rV[F]_k) 0 i : F) *:
       ((resid (uc_residual_x cf) (mrow (o := EO) (u_sigmas_f s) i) (u_x s) : 'rV[F]_n)^T *m
        (resid (uc_residual_z cf) (mrow (o := EO) sh i) zp : 'rV[F]_m)))).
    by apply: eq_bigr => i _; rewrite rx rz !mrowE; congr (_ *: _); rewrite e3; exact: (mx_getE (pt_Wc p : 'rV[F]_k) 0 i).
  rewrite PxzE => -[s1E].
  apply: (IH s1 _ false) => //; rewrite -s1E; cbn [u_P].
  rewrite SE -zE e3 in uS *.
  have := @moments_psd F k n m (pt_Wc p) (u_sigmas_f s) (u_x s) sh zp Rm w0 hR (wcov_psd _ _ w0) uS.
  by rewrite PE mulmxA.
- move: E => [e4]; apply: (IH s1 _ b) => //; rewrite -e4 //.
Qed.
Print Assumptions C26_psd.
