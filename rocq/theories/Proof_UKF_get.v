(** * Entries of the sigma-point arrays, in any arithmetic. *)
From Coq Require Import List Arith Bool Lia.
From Verif Require Import Ops Model_KF Model_Common Model_UKF Proof_Common.
Import ListNotations.
Set Implicit Arguments.
Unset Strict Implicit.

Section G.
Variable o : nops.
Hypothesis L : get_laws o.

Lemma row_write_get p q (A : M o p q) r (V : M o 1 q) i j : i < p -> j < q ->
  mget (mwrite A r 0 V) i j = if i =? r then mget V 0 j else mget A i j.
Proof.
  intros. destruct (Nat.eqb_spec i r).
  - subst. rewrite get_write_in by (auto; lia). f_equal; lia.
  - apply get_write_out; auto; lia.
Qed.

(** The loop of sym_points. *)
Lemma sym_loop_get n (f g : nat -> M o 1 n) (s0 : M o (S (n + n)) n) t i j : t <= n -> i < S (n + n) -> j < n ->
  mget (fold_left (fun s k => mwrite (mwrite s (k + 1) 0 (f k)) (n + k + 1) 0 (g k)) (seq 0 t) s0) i j =
  if (1 <=? i) && (i <? t + 1) then mget (f (i - 1)) 0 j
  else if (n + 1 <=? i) && (i <? n + t + 1) then mget (g (i - n - 1)) 0 j
  else mget s0 i j.
Proof.
  intros ht hi hj. induction t.
  - cbn [seq fold_left]. destruct (Nat.leb_spec 1 i), (Nat.ltb_spec i (0 + 1)); cbn [andb]; try lia;
    destruct (Nat.leb_spec (n + 1) i), (Nat.ltb_spec i (n + 0 + 1)); cbn [andb]; try lia; reflexivity.
  - rewrite seq_S, fold_left_app. cbn [fold_left]. change (0 + t) with t.
    rewrite row_write_get by lia. destruct (Nat.eqb_spec i (n + t + 1)) as [->|h1].
    + destruct (Nat.leb_spec 1 (n + t + 1)), (Nat.ltb_spec (n + t + 1) (S t + 1)); cbn [andb]; try lia;
      destruct (Nat.leb_spec (n + 1) (n + t + 1)), (Nat.ltb_spec (n + t + 1) (n + S t + 1)); cbn [andb]; try lia.
      replace (n + t + 1 - n - 1) with t by lia. reflexivity.
    + rewrite row_write_get by lia. destruct (Nat.eqb_spec i (t + 1)) as [->|h2].
      * destruct (Nat.leb_spec 1 (t + 1)), (Nat.ltb_spec (t + 1) (S t + 1)); cbn [andb]; try lia.
        replace (t + 1 - 1) with t by lia. reflexivity.
      * rewrite IHt by lia.
        destruct (Nat.leb_spec 1 i), (Nat.ltb_spec i (t + 1)), (Nat.ltb_spec i (S t + 1)); cbn [andb]; try lia; try reflexivity;
        destruct (Nat.leb_spec (n + 1) i), (Nat.ltb_spec i (n + t + 1)), (Nat.ltb_spec i (n + S t + 1)); cbn [andb]; try lia; reflexivity.
Qed.

Lemma map_rows_get k p q (f : M o 1 p -> M o 1 q) (A : M o k p) out i j : i < k -> j < q ->
  mget (@map_rows o k p q f A out) i j = mget (f (mrow A i)) 0 j.
Proof.
  intros hi hj. unfold map_rows.
  assert (H : forall t, t <= k -> mget (fold_left (fun out i => mwrite out i 0 (f (mrow A i))) (seq 0 t) out) i j =
     if i <? t then mget (f (mrow A i)) 0 j else mget out i j).
  { induction t; intros ht; [reflexivity|]. rewrite seq_S, fold_left_app. cbn [fold_left]. change (0 + t) with t.
    rewrite row_write_get by lia. destruct (Nat.eqb_spec i t) as [->|].
    - destruct (Nat.ltb_spec t (S t)); [reflexivity|lia].
    - rewrite IHt by lia. destruct (Nat.ltb_spec i t), (Nat.ltb_spec i (S t)); try lia; reflexivity. }
  rewrite H by lia. destruct (Nat.ltb_spec i k); [reflexivity|lia].
Qed.

Lemma weights_get k (w0 c : sc o) i : i < k -> mget (weights k w0 c) 0 i = if i =? 0 then w0 else c.
Proof.
  intros. unfold weights. rewrite get_write by (auto; lia).
  destruct i; cbn [Nat.eqb Nat.leb Nat.ltb andb plus Nat.sub]; rewrite get_fun by (auto; lia); reflexivity.
Qed.

Lemma istar_get (lam : sc o) d i j : i < S (S d) -> j < S (S (S d)) ->
  mget (istar lam (S (S d))) i j =
  let a := ssqrt o (smul o (smul o lam (snat o (S (S d)))) (sadd o (snat o (S (S d))) (s1 o))) in
  if i =? S d then (if j =? S (S d) then sdiv o (sopp o (snat o (S (S d)))) a else sdiv o (s1 o) a)
  else if j =? S (S d) then s0 o else mget (istar lam (S d)) i j.
Proof. intros hi hj. exact (get_fun L _ hi hj). Qed.
End G.
