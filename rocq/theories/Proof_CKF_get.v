(** * Entries of the cubature points, for any arithmetic. *)
From Coq Require Import List Arith Bool Lia.
From Verif Require Import Ops Proof_Common Model_UKF Model_CKF Proof_UKF_get.
Import ListNotations.
Set Implicit Arguments.
Unset Strict Implicit.

Section S.
Variable o : nops.
Hypothesis L : get_laws o.

Lemma cub_loop_get n (f g : nat -> M o 1 n) (s0 : M o (n + n) n) t i j : t <= n -> i < n + n -> j < n ->
  mget (fold_left (fun s k => mwrite (mwrite s k 0 (f k)) (n + k) 0 (g k)) (seq 0 t) s0) i j =
  if i <? t then mget (f i) 0 j
  else if (n <=? i) && (i <? n + t) then mget (g (i - n)) 0 j
  else mget s0 i j.
Proof.
  induction t as [|t IH]; intros ht hi hj.
  - cbn [seq fold_left]. replace (i <? 0) with false by (symmetry; apply Nat.ltb_ge; lia).
    destruct (n <=? i) eqn:E1; cbn [andb]; [|reflexivity].
    replace (i <? n + 0) with false; [reflexivity|symmetry; apply Nat.ltb_ge; apply Nat.leb_le in E1; lia].
  - rewrite seq_S, fold_left_app. cbn [plus fold_left].
    rewrite row_write_get by (auto; lia). destruct (Nat.eqb_spec i (n + t)) as [->|h1].
    + replace (n + t <? S t) with false by (symmetry; apply Nat.ltb_ge; lia).
      replace (n <=? n + t) with true by (symmetry; apply Nat.leb_le; lia).
      replace (n + t <? n + S t) with true by (symmetry; apply Nat.ltb_lt; lia). cbn [andb]. do 2 f_equal; lia.
    + rewrite row_write_get by (auto; lia). destruct (Nat.eqb_spec i t) as [->|h2].
      * replace (t <? S t) with true by (symmetry; apply Nat.ltb_lt; lia). reflexivity.
      * rewrite IH by lia.
        replace (i <? S t) with (i <? t) by (destruct (i <? t) eqn:E; symmetry; [apply Nat.ltb_lt; apply Nat.ltb_lt in E; lia|apply Nat.ltb_ge; apply Nat.ltb_ge in E; lia]).
        replace (i <? n + S t) with (i <? n + t) by (destruct (i <? n + t) eqn:E; symmetry; [apply Nat.ltb_lt; apply Nat.ltb_lt in E; lia|apply Nat.ltb_ge; apply Nat.ltb_ge in E; lia]).
        reflexivity.
Qed.
End S.
