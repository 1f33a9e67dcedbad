(** * C22: covariance of the extended Kalman filter in exact arithmetic. *)
From mathcomp Require Import all_ssreflect all_algebra.
From Verif Require Import Ops Exact Spec ZmodTac LinAlg Model_KF Model_EKF Spec_KF Spec_KF_exact Proof_KF Proof_KF_exact.
Set Implicit Arguments.
Unset Strict Implicit.
Unset Printing Implicit Defensive.
Import Order.TTheory GRing.Theory Num.Theory.
Local Open Scope ring_scope.

Section EKF.
Variable F : realFieldType.
Variables (fsqrt fexp flog : F -> F) (n m l : nat).
Notation EO := (exactO fsqrt fexp flog).

(** Every noise matrix in the call is symmetric positive semidefinite; nothing is asked of the model functions,
    of the inverse routine or of the transition matrix. *)
Definition ek_psd_call (cc : ek_cfg EO n m l * ek_call EO n m l) : Prop :=
  psd (ec_Q cc.1 : 'M[F]_n) /\ psd (ec_R cc.1 : 'M[F]_m) /\
  match cc.2 with
  | EUpdate _ _ _ (Some (Scal r)) _ => 0 <= (r : F)
  | EUpdate _ _ _ (Some (Mat R)) _ => psd (R : 'M[F]_m)
  | _ => True
  end.
Definition ek_good (s : ek_st EO n m) : Prop :=
  psd (e_P s : 'M[F]_n) /\ psd (e_P_prior s : 'M[F]_n) /\ psd (e_P_post s : 'M[F]_n).

Lemma ek_correct_psd x (P : 'M[F]_n) (H : 'M[F]_(m,n)) (R S SI : 'M[F]_m) y z s :
  psd P -> psd R -> ek_good s -> ek_good (@ek_correct EO n m x P H R S SI y z s).
Proof.
move=> pP pR [h1 [h2 h3]]; have pJ : psd (Jmx P H R (P *m H^T *m SI)) by exact: psd_Jmx.
by split; [exact: pJ|split; [exact: h2|exact: pJ]].
Qed.

Lemma ek_step_psd cc s : ek_psd_call cc -> ek_good s -> ek_good (fst (ek_step cc s)).
Proof.
case: cc => c call [] /= pQ [pR pa] g; case: call pa => [u|z hjac hx R res|z hjac hx u] pa; have [g1 [g2 g3]] := g.
- have p : psd (ec_F c *m e_P s *m (ec_F c)^T + ec_Q c : 'M[F]_n) by apply: psdD => //; exact: psd_congr.
  by split; [exact: p|split; [exact: p|exact: g3]].
- rewrite /ek_step /= /ek_update; case: z => [z|]; last by split; [|split].
  case: (ec_inv c _) => [SI|]; last by split; [|split].
  apply: ek_correct_psd => //; apply: psd_sm_or => //.
- rewrite /ek_step /= /ek_predict_update.
  have p : psd (ec_F c *m e_P s *m (ec_F c)^T + ec_Q c : 'M[F]_n) by apply: psdD => //; exact: psd_congr.
  case: (ec_inv c _) => [SI|]; last by split; [|split].
  case: z => [z|]; last by split; [|split].
  by apply: ek_correct_psd.
Qed.
End EKF.

(** P, P_prior and P_post stay symmetric positive semidefinite through every history of predict, update and
    predict_update, for arbitrary measurement functions, Jacobians (right or wrong), residual functions and inverse
    routines (raising ones included). *)
Theorem C22_ekf_psd : forall (F : realFieldType) (fsqrt fexp flog : F -> F) (n m l : nat)
    (cs : seq (ek_cfg (exactO fsqrt fexp flog) n m l * ek_call (exactO fsqrt fexp flog) n m l))
    (s : ek_st (exactO fsqrt fexp flog) n m),
  List.Forall (@ek_psd_call F fsqrt fexp flog n m l) cs -> ek_good s -> ek_good (ek_run cs s).
Proof.
move=> F f1 f2 f3 n m l cs s h; elim: h s => [|c cs' hc _ IH] s g //=.
by rewrite /ek_run /=; apply: IH; apply: ek_step_psd.
Qed.
Print Assumptions C22_ekf_psd.

(** A new filter is good, and its default noises are. *)
Example C22_ekf_psd_example (F : realFieldType) (fsqrt fexp flog : F -> F) (n m l : nat) (fm : F) hjac hx z inv :
  let EO := exactO fsqrt fexp flog in
  ek_good (ek_init (o := EO) n m fm) /\
  @ek_psd_call F fsqrt fexp flog n m l (@mkEC EO n m l (1%:M : 'M[F]_n) None (1%:M : 'M[F]_n) (1%:M : 'M[F]_m) inv,
                @EUpdate EO n m l (Some z) hjac hx (Some (@Scal EO m (2%:R : F))) (@msub EO m 1)).
Proof.
split; first by split; [exact: psd1|split; exact: psd1].
by split; [exact: psd1|split; [exact: psd1|rewrite /= ler0n]].
Qed.
