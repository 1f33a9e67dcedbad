(** C42: the entries of the continuous white noise matrix are the integrals that define it. *)
From Coq Require Import List Arith Reals Lra Lia.
From Coquelicot Require Import Coquelicot.
From Verif Require Import Ops ListOps RealOps Model_Common.
Import ListNotations.
Local Open Scope R_scope.

Lemma mono_int (a b : nat) (t : R) :
  is_RInt (fun s => s ^ a / INR (fact a) * (s ^ b / INR (fact b))) 0 t
    (t ^ S (a + b) / (INR (fact a) * INR (fact b) * INR (S (a + b)))).
Proof.
  pose proof (INR_fact_neq_0 a) as ha. pose proof (INR_fact_neq_0 b) as hb.
  assert (hc : INR (S (a + b)) <> 0) by (apply not_0_INR; lia).
  set (G := fun s : R => s ^ S (a + b) / (INR (fact a) * INR (fact b) * INR (S (a + b)))).
  replace (t ^ S (a + b) / (INR (fact a) * INR (fact b) * INR (S (a + b)))) with (minus (G t) (G 0)).
  2: { unfold minus, plus, opp, G; cbn [pow]; simpl AbelianGroup.opp; cbn. rewrite Rmult_0_l. field; auto. }
  apply (is_RInt_derive G).
  - intros x _. unfold G. auto_derive; [exact I|]. rewrite Nat.pred_succ || idtac.
    replace (Init.Nat.pred (S (a + b))) with (a + b)%nat by lia. rewrite pow_add. field; auto.
  - intros x _. apply (ex_derive_continuous (fun s => s ^ a / INR (fact a) * (s ^ b / INR (fact b)))). auto_derive; exact I.
Qed.

(** Entry (r, r') is the integral over [0, dt] of the product of the responses at time s of state r
    and of state r' to a unit impulse of the driven (last) derivative. *)
Theorem C42_is_integral : forall (order r r' : nat) (dt : R),
  (1 <= order <= 3)%nat -> (r <= order)%nat -> (r' <= order)%nat ->
  is_RInt (fun s => s ^ (order - r) / INR (fact (order - r)) * (s ^ (order - r') / INR (fact (order - r')))) 0 dt
    (nth r' (nth r (q_cont_table (o := listO RS) (S order) dt) []) 0).
Proof.
  intros order r r' dt ho hr hr'.
  evar_last; [apply mono_int|].
  assert (O : order = 1%nat \/ order = 2%nat \/ order = 3%nat) by lia.
  destruct O as [->|[->| ->]];
  destruct r as [|[|[|[|r]]]]; try lia; destruct r' as [|[|[|[|r']]]]; try lia; cbn -[INR Rdiv Rmult]; rs; simpl INR; try field; try lra.
Qed.
Print Assumptions C42_is_integral.
