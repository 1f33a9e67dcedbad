(** * C32, C33: resampling. *)
From Coq Require Import List Arith Bool ZArith Reals Lra Lia Permutation Sorted.
From Verif Require Import Ops RealOps Model_DB Model_Resample.
Import ListNotations.
Set Implicit Arguments.
Unset Strict Implicit.

(** ** Any arithmetic *)
Section LawFree.
Variable o : sops.
Notation V := (list (sc o)).
Notation d := (s0 o).

Lemma walk_step p pos c cs j :
  walk (p :: pos) (c :: cs) j = if sltb o p c then rmap (cons j) (walk pos (c :: cs) j) else walk (p :: pos) cs (S j).
Proof. reflexivity. Qed.

Lemma walk_ok : forall pos cs j idx, walk pos cs j = Ok idx -> length idx = length pos /\
  forall i, i < length pos -> j <= nth i idx 0 < j + length cs /\ sltb o (nth i pos d) (nth (nth i idx 0 - j) cs d) = true /\
    (forall k, j <= k < nth i idx 0 -> exists i', i' <= i /\ sltb o (nth i' pos d) (nth (k - j) cs d) = false) /\
    (0 < i -> nth (i - 1) idx 0 <= nth i idx 0).
Proof.
  induction pos as [|p pos IHp].
  { intros [|c cs] j idx E; inversion E; subst; split; [reflexivity|intros i H; inversion H|reflexivity|intros i H; inversion H]. }
  induction cs as [|c cs IHc]; intros j idx E; [discriminate|].
  rewrite walk_step in E. destruct (sltb o p c) eqn:L.
  - destruct (walk pos (c :: cs) j) as [r|e] eqn:W; [|discriminate]. inversion E; subst; clear E.
    destruct (IHp _ _ _ W) as [Hl Hi]. split; [simpl; rewrite Hl; reflexivity|].
    intros [|i] H; simpl nth.
    + repeat split; try (simpl; lia). { rewrite Nat.sub_diag. exact L. }
    + destruct (Hi i) as [A [B [C D]]]; [simpl in H; lia|]. split; [exact A|]. split; [exact B|]. split.
      * intros k Hk. destruct (C k Hk) as [i' [I1 I2]]. exists (S i'). split; [lia|exact I2].
      * intros _. destruct i as [|i]; [simpl; lia|]. specialize (D ltac:(lia)).
        replace (S i - 1) with i in D by lia. replace (S (S i) - 1) with (S i) by lia. exact D.
  - destruct (IHc (S j) idx E) as [Hl Hi]. split; [exact Hl|]. intros i H. destruct (Hi i H) as [A [B [C D]]].
    split; [simpl; lia|]. split.
    { replace (nth i idx 0 - j) with (S (nth i idx 0 - S j)) by lia. exact B. }
    split; [|exact D]. intros k Hk. destruct (Nat.eq_dec k j) as [->|n].
    + exists 0. rewrite Nat.sub_diag. split; [lia|exact L].
    + destruct (C k) as [i' [I1 I2]]; [lia|]. exists i'. split; [exact I1|].
      replace (k - j) with (S (k - S j)) by lia. exact I2.
Qed.

Lemma walk_err : forall pos cs j e, walk pos cs j = Err e ->
  e = IndexError /\ exists i, i < length pos /\ (cs = [] \/ sltb o (nth i pos d) (last cs d) = false).
Proof.
  induction pos as [|p pos IHp]; [intros [|c cs] j e E; discriminate|].
  induction cs as [|c cs IHc]; intros j e E.
  - inversion E. split; [reflexivity|]. exists 0. split; [simpl; lia|left; reflexivity].
  - rewrite walk_step in E. destruct (sltb o p c) eqn:L.
    + destruct (walk pos (c :: cs) j) as [r|e'] eqn:W; [discriminate|]. inversion E; subst.
      destruct (IHp _ _ _ W) as [-> [i [Hi H]]]. split; [reflexivity|]. exists (S i). split; [simpl; lia|exact H].
    + destruct (IHc _ _ E) as [-> [i [Hi H]]]. split; [reflexivity|]. destruct cs as [|c' cs].
      * exists 0. split; [simpl; lia|right; exact L].
      * exists i. split; [exact Hi|]. right. destruct H as [H|H]; [discriminate|exact H].
Qed.

Lemma cumsum_from_length acc w : length (cumsum_from (o := o) acc w) = length w.
Proof. revert acc; induction w; intros; simpl; [|rewrite IHw]; reflexivity. Qed.
Lemma cumsum_length w : length (cumsum (o := o) w) = length w.
Proof. destruct w; simpl; [|rewrite cumsum_from_length]; reflexivity. Qed.
Lemma syst_length u N : length (syst_positions (o := o) u N) = N.
Proof. unfold syst_positions. rewrite map_length, seq_length. reflexivity. Qed.
Lemma strat_length us N : length us = N -> length (strat_positions (o := o) us N) = N.
Proof. intros <-. unfold strat_positions. rewrite map_length, combine_length, seq_length. apply Nat.min_id. Qed.
End LawFree.

(** In any arithmetic: if the call returns, there are N indexes, all in range and in order, each index the place of a
    cumulative weight above the sampling position; the only exception is IndexError, and only if a position is not below
    the last cumulative weight. *)
Theorem C32_any_arithmetic : forall (o : sops) (weights : list (sc o)) (pos : list (sc o)) (r : res (list nat)),
  let N := length weights in
  (exists u, pos = syst_positions u N /\ r = systematic_resample weights u) \/
  (exists us, length us = N /\ pos = strat_positions us N /\ r = stratified_resample weights us) ->
  match r with
  | Ok idx => length idx = N /\ (forall i, i < N -> nth i idx 0 < N /\ sltb o (nth i pos (s0 o)) (nth (nth i idx 0) (cumsum weights) (s0 o)) = true)
              /\ (forall i, S i < N -> nth i idx 0 <= nth (S i) idx 0)
  | Err e => e = IndexError /\ exists i, i < N /\ sltb o (nth i pos (s0 o)) (last (cumsum weights) (s0 o)) = false
  end.
Proof.
  intros o w pos r N H.
  assert (G : length pos = N /\ r = walk pos (cumsum w) 0).
  { destruct H as [[u [-> ->]]|[us [L [-> ->]]]]; split; try reflexivity; [apply syst_length|apply strat_length; exact L]. }
  clear H. destruct G as [L ->]. destruct (walk pos (cumsum w) 0) as [idx|e] eqn:E.
  - destruct (walk_ok E) as [Hl Hi]. rewrite L in Hl. split; [exact Hl|]. split.
    + intros i Hn. destruct (Hi i) as [A [B _]]; [lia|]. rewrite cumsum_length in A. rewrite Nat.sub_0_r in B. split; [unfold N; lia|exact B].
    + intros i Hn. destruct (Hi (S i)) as [_ [_ [_ D]]]; [lia|]. simpl in D. rewrite Nat.sub_0_r in D. apply D. lia.
  - destruct (walk_err E) as [-> [i [Hi H]]]. split; [reflexivity|]. exists i. split; [lia|].
    destruct H as [H|H]; [|exact H]. exfalso. destruct w; [|discriminate H]. simpl in *. unfold N in L. simpl in L. lia.
Qed.
Print Assumptions C32_any_arithmetic.

(** ** Exact arithmetic *)
Local Open Scope R_scope.

(** Total of the first j weights. *)
Fixpoint rsum (l : list R) : R := match l with [] => 0 | a :: r => a + rsum r end.
Definition upto (w : list R) (j : nat) : R := rsum (firstn j w).

Definition weights_ok (w : list R) : Prop := (forall x, In x w -> 0 <= x) /\ rsum w = 1.

Lemma cumsum_lengthR (w : list R) : @length R (cumsum (o := RS) w) = @length R w.
Proof. apply (cumsum_length (o := RS)). Qed.
Lemma cumsum_fromE (acc : R) (w : list R) j : (j < length w)%nat -> nth j (cumsum_from (o := RS) acc w) 0 = acc + upto w (S j).
Proof.
  revert acc j; induction w as [|a w IH]; intros acc j H; [inversion H|].
  destruct j as [|j]; unfold upto in *.
  - simpl. lra.
  - apply lt_S_n in H. change (nth j (cumsum_from (o := RS) (acc + a) w) 0 = acc + (a + rsum (firstn (S j) w))).
    rewrite IH by exact H. lra.
Qed.
Lemma cumsumE (w : list R) j : (j < length w)%nat -> nth j (cumsum (o := RS) w) 0 = upto w (S j).
Proof.
  destruct w as [|a w]; intros H; [inversion H|]. destruct j as [|j]; unfold upto; simpl; [lra|].
  apply lt_S_n in H. rewrite cumsum_fromE by exact H. reflexivity.
Qed.
Lemma upto_all w j : (length w <= j)%nat -> upto w j = rsum w.
Proof. intros H. unfold upto. rewrite firstn_all2 by exact H. reflexivity. Qed.
Lemma upto_S w j : (j < length w)%nat -> upto w (S j) = upto w j + nth j w 0.
Proof.
  revert j; induction w as [|a w IH]; intros j H; [inversion H|]. destruct j as [|j]; unfold upto in *; simpl; [lra|].
  simpl in H. specialize (IH j ltac:(lia)). simpl in IH. lra.
Qed.
Lemma nth_nonneg w j : (forall x, In x w -> 0 <= x) -> 0 <= nth j w 0.
Proof. intros H. destruct (Nat.lt_ge_cases j (length w)); [apply H, nth_In; assumption|rewrite nth_overflow by assumption; lra]. Qed.
Lemma upto_mono w j k : (forall x, In x w -> 0 <= x) -> (j <= k)%nat -> upto w j <= upto w k.
Proof.
  intros p H. induction H as [|k H IH]; [lra|].
  destruct (Nat.lt_ge_cases k (length w)) as [L|L].
  - rewrite upto_S by exact L. pose proof (nth_nonneg (w := w) k p). lra.
  - rewrite (upto_all (j := S k)) by lia. rewrite (upto_all (j := k)) in IH by lia. exact IH.
Qed.
Lemma last_cumsum (w : list R) : w <> [] -> last (cumsum (o := RS) w) 0 = rsum w.
Proof.
  intros n. assert (length w <> 0%nat) by (destruct w; simpl; congruence).
  assert (E : forall l : list R, last l 0 = nth (length l - 1) l 0).
  { induction l as [|a [|b l] IH]; try reflexivity. change (last (a :: b :: l) 0) with (last (b :: l) 0). rewrite IH.
    simpl length. replace (S (S (length l)) - 1)%nat with (S (S (length l) - 1)) by lia. reflexivity. }
  rewrite E, cumsum_lengthR, cumsumE by lia. apply upto_all. lia.
Qed.

(** The loop inverts the distribution function: index i is the j with C_j <= position_i < C_(j+1). *)
Lemma walk_exact : forall w pos : list R, weights_ok w -> (forall i, (i < length pos)%nat -> 0 <= nth i pos 0 < 1) ->
  (forall i k, (i <= k < length pos)%nat -> nth i pos 0 <= nth k pos 0) ->
  exists idx, walk (o := RS) pos (cumsum w) 0 = Ok idx /\ length idx = length pos /\
    forall i, (i < length pos)%nat -> (nth i idx 0%nat < length w)%nat /\ upto w (nth i idx 0%nat) <= nth i pos 0 < upto w (S (nth i idx 0%nat)).
Proof.
  intros w pos [p s] r mono.
  assert (nw : w <> []) by (intros ->; simpl in s; lra).
  destruct (walk (o := RS) pos (cumsum w) 0) as [idx|e] eqn:E.
  - exists idx. split; [reflexivity|]. destruct (walk_ok E) as [L H]. split; [exact L|]. intros i Hi.
    destruct (H i Hi) as [A [B [C _]]]. change (s0 RS) with 0 in *. change (@length (sc RS)) with (@length R) in *. rewrite cumsum_lengthR in A. rewrite Nat.sub_0_r in B.
    apply Rltb_true in B. rewrite cumsumE in B by lia. split; [lia|]. split; [|exact B].
    destruct (nth i idx 0%nat) as [|k] eqn:K; [unfold upto; simpl; apply r; exact Hi|].
    destruct (C k) as [i' [I1 I2]]; [lia|]. apply Rltb_false in I2. rewrite Nat.sub_0_r, cumsumE in I2 by lia.
    exact (Rle_trans _ _ _ I2 (mono i' i (conj I1 Hi))).
  - exfalso. destruct (walk_err E) as [_ [i [Hi [H|H]]]].
    + destruct w; [congruence|discriminate].
    + apply Rltb_false in H. change (s0 RS) with 0 in H. rewrite last_cumsum, s in H by exact nw. exact (Rle_not_lt _ _ H (proj2 (r i Hi))).
Qed.

Lemma syst_nth (u : R) N i : (i < N)%nat -> nth i (syst_positions (o := RS) u N) 0 = (u + INR i) / INR N.
Proof.
  intros H. unfold syst_positions. rewrite (nth_indep _ 0 ((fun i => (u + INR i) / INR N) 0%nat)) by (rewrite map_length, seq_length; exact H).
  change (fun i0 : nat => sdiv RS (sadd RS u (snat RS i0)) (snat RS N)) with (fun i0 : nat => (u + INR i0) / INR N).
  rewrite (map_nth (fun i => (u + INR i) / INR N)), seq_nth by exact H. reflexivity.
Qed.
Lemma strat_nth (us : list R) N i : length us = N -> (i < N)%nat -> nth i (strat_positions (o := RS) us N) 0 = (nth i us 0 + INR i) / INR N.
Proof.
  intros L H. unfold strat_positions.
  change (map _ _) with (map (fun p => (fst p + INR (snd p)) / INR N) (combine us (seq 0 N))).
  rewrite (nth_indep _ 0 ((fun p => (fst p + INR (snd p)) / INR N) (0, 0%nat))) by (rewrite map_length, combine_length, seq_length; lia).
  rewrite (map_nth (fun p => (fst p + INR (snd p)) / INR N)), combine_nth by (rewrite seq_length; exact L). simpl.
  rewrite seq_nth by exact H. reflexivity.
Qed.

(** Specification of both: the inverse of the distribution function at each position. *)
Definition inverse_cdf (w : list R) (p : R) (j : nat) : Prop := (j < length w)%nat /\ upto w j <= p < upto w (S j).

(** Positions (v_i + i) / N with v_i in [0,1). *)
Lemma both (w : list R) (v : nat -> R) (pos : list R) : let N := length w in weights_ok w -> (forall i, (i < N)%nat -> 0 <= v i < 1) ->
  length pos = N -> (forall i, (i < N)%nat -> nth i pos 0 = (v i + INR i) / INR N) ->
  (forall i k, (i <= k < N)%nat -> v i + INR i <= v k + INR k) ->
  exists idx, walk (o := RS) pos (cumsum w) 0 = Ok idx /\ length idx = N /\
    forall i, (i < N)%nat -> inverse_cdf w ((v i + INR i) / INR N) (nth i idx 0%nat).
Proof.
  intros N ok hv L hp mono.
  assert (N0 : (0 < N)%nat). { unfold N. destruct w; [destruct ok as [_ s]; simpl in s; lra|simpl; lia]. }
  assert (NR : 0 < INR N) by (apply lt_0_INR; exact N0).
  destruct (@walk_exact w pos ok) as [idx [E [Hl H]]].
  - intros i Hi. rewrite L in Hi. rewrite hp by exact Hi. specialize (hv i Hi). pose proof (pos_INR i).
    assert (INR i + 1 <= INR N) by (rewrite <- S_INR; apply le_INR; lia).
    split; [apply Rmult_le_pos; [lra|left; apply Rinv_0_lt_compat; exact NR]|].
    apply (Rmult_lt_reg_r (INR N)); [exact NR|]. unfold Rdiv. rewrite Rmult_assoc, Rinv_l by lra. lra.
  - intros i k Hk. rewrite L in Hk. rewrite !hp by lia. apply Rmult_le_compat_r; [left; apply Rinv_0_lt_compat; exact NR|]. apply mono; lia.
  - exists idx. split; [exact E|]. split; [congruence|]. intros i Hi. rewrite L in H. destruct (H i Hi) as [A B].
    rewrite hp in B by exact Hi. split; assumption.
Qed.

(** Consequences of the inversion. *)
Lemma inverse_weight w p j : inverse_cdf w p j -> 0 < nth j w 0.
Proof. intros [H [A B]]. rewrite upto_S in B by exact H. lra. Qed.
Lemma inverse_mono w p q j k : (forall x, In x w -> 0 <= x) -> inverse_cdf w p j -> inverse_cdf w q k -> p <= q -> (j <= k)%nat.
Proof.
  intros nn [Hj [A B]] [Hk [C D]] pq. destruct (Nat.le_gt_cases j k) as [|G]; [assumption|exfalso].
  pose proof (upto_mono (j := S k) (k := j) nn G). lra.
Qed.

(** Counting natural numbers. *)
Definition cnt (P : nat -> bool) (N : nat) : nat := length (filter P (seq 0 N)).
Lemma cnt_S P N : cnt P (S N) = (cnt P N + if P N then 1 else 0)%nat.
Proof. unfold cnt. rewrite seq_S, filter_app, app_length. simpl. destruct (P N); reflexivity. Qed.
Lemma cnt_le2 P Q S' N : (forall i, (i < N)%nat -> P i = true -> Q i = true \/ S' i = true) -> (cnt P N <= cnt Q N + cnt S' N)%nat.
Proof.
  induction N as [|N IH]; intros H; [unfold cnt; simpl; lia|]. rewrite !cnt_S. specialize (IH (fun i h => H i ltac:(lia))).
  specialize (H N ltac:(lia)). destruct (P N), (Q N), (S' N); try lia; destruct (H eq_refl); discriminate.
Qed.
Lemma cnt_disj P Q S' N : (forall i, (i < N)%nat -> (P i = true -> Q i = false) /\ (P i = true \/ Q i = true -> S' i = true)) ->
  (cnt P N + cnt Q N <= cnt S' N)%nat.
Proof.
  induction N as [|N IH]; intros H; [unfold cnt; simpl; lia|]. rewrite !cnt_S. specialize (IH (fun i h => H i ltac:(lia))).
  destruct (H N ltac:(lia)) as [A B]. destruct (P N), (Q N), (S' N); try lia; try (discriminate (A eq_refl));
    try (discriminate (B (or_introl eq_refl))); try (discriminate (B (or_intror eq_refl))).
Qed.
Lemma cnt_ext P Q N : (forall i, (i < N)%nat -> P i = Q i) -> cnt P N = cnt Q N.
Proof. induction N as [|N IH]; intros H; [reflexivity|]. rewrite !cnt_S, IH by (intros; apply H; lia). rewrite H by lia. reflexivity. Qed.

(** #{i < N : i < y} is y rounded up. *)
Lemma cnt_lt y N : -1 < y <= INR N -> y <= INR (cnt (fun i => Rltb (INR i) y) N) < y + 1.
Proof.
  revert y; induction N as [|N IH]; intros y H; [unfold cnt; simpl in *; lra|].
  rewrite cnt_S, plus_INR. destruct (Rltb (INR N) y) eqn:E.
  - apply Rltb_true in E. rewrite S_INR in H.
    assert (F : cnt (fun i => Rltb (INR i) y) N = N).
    { unfold cnt. rewrite <- (seq_length N 0) at 2. f_equal.
      assert (G : forall l, (forall i, In i l -> Rltb (INR i) y = true) -> filter (fun i => Rltb (INR i) y) l = l).
      { induction l as [|a l IHl]; intros Hl; [reflexivity|]. simpl. rewrite (Hl a (or_introl eq_refl)). f_equal. apply IHl. intros i Hi. apply Hl. right; exact Hi. }
      apply G. intros i Hi. apply in_seq in Hi. apply Rltb_true. assert (INR i <= INR N) by (apply le_INR; lia). lra. }
    rewrite F. simpl. lra.
  - apply Rltb_false in E. specialize (IH y ltac:(lra)). simpl. lra.
Qed.
(** #{i < N : i <= z} is z rounded down plus one. *)
Lemma cnt_le z N : -1 <= z < INR N -> z < INR (cnt (fun i => Rleb (INR i) z) N) <= z + 1.
Proof.
  revert z; induction N as [|N IH]; intros z H; [unfold cnt; simpl in *; lra|].
  rewrite cnt_S, plus_INR. destruct (Rleb (INR N) z) eqn:E.
  - apply Rleb_true in E. rewrite S_INR in H.
    assert (F : cnt (fun i => Rleb (INR i) z) N = N).
    { unfold cnt. rewrite <- (seq_length N 0) at 2. f_equal.
      assert (G : forall l, (forall i, In i l -> Rleb (INR i) z = true) -> filter (fun i => Rleb (INR i) z) l = l).
      { induction l as [|a l IHl]; intros Hl; [reflexivity|]. simpl. rewrite (Hl a (or_introl eq_refl)). f_equal. apply IHl. intros i Hi. apply Hl. right; exact Hi. }
      apply G. intros i Hi. apply in_seq in Hi. apply Rleb_true. assert (INR i <= INR N) by (apply le_INR; lia). lra. }
    rewrite F. simpl. lra.
  - apply Rleb_false in E. specialize (IH z ltac:(lra)). simpl. lra.
Qed.

Lemma count_occ_cnt (idx : list nat) N j : length idx = N -> count_occ Nat.eq_dec idx j = cnt (fun i => Nat.eqb (nth i idx 0%nat) j) N.
Proof.
  intros <-. rewrite <- (rev_involutive idx). generalize (rev idx) as l. induction l as [|a l IH]; [reflexivity|].
  simpl rev. rewrite app_length. simpl length. rewrite Nat.add_1_r, cnt_S.
  assert (C : forall l1 l2, count_occ Nat.eq_dec (l1 ++ l2) j = (count_occ Nat.eq_dec l1 j + count_occ Nat.eq_dec l2 j)%nat).
  { induction l1 as [|b l1 IHl]; intros l2; simpl; [reflexivity|]. rewrite IHl. destruct (Nat.eq_dec b j); lia. }
  rewrite C, IH. f_equal.
  - apply cnt_ext. intros i Hi. rewrite app_nth1 by exact Hi. reflexivity.
  - rewrite app_nth2 by lia. rewrite Nat.sub_diag. simpl. destruct (Nat.eq_dec a j) as [->|n].
    + rewrite Nat.eqb_refl. reflexivity.
    + destruct (Nat.eqb_spec a j); [contradiction|reflexivity].
Qed.

Lemma upto_range w j : weights_ok w -> 0 <= upto w j <= 1.
Proof.
  intros [p s]. split; [apply (upto_mono (j := 0) p); lia|].
  destruct (Nat.le_gt_cases (length w) j); [rewrite upto_all by assumption; lra|].
  rewrite <- s, <- (upto_all (w := w) (j := length w)) by lia. apply upto_mono; [exact p|lia].
Qed.

(** ** C32: systematic resampling, all weights, all draws *)
Theorem C32_systematic : forall (w : list R) (u : R), weights_ok w -> 0 <= u < 1 ->
  let N := length w in
  exists idx, systematic_resample (o := RS) w u = Ok idx /\ length idx = N /\
    (forall i, (i < N)%nat -> inverse_cdf w ((u + INR i) / INR N) (nth i idx 0%nat) /\ 0 < nth (nth i idx 0%nat) w 0) /\
    (forall i k, (i <= k < N)%nat -> (nth i idx 0 <= nth k idx 0)%nat) /\
    (forall j, (j < N)%nat -> Rabs (INR (count_occ Nat.eq_dec idx j) - INR N * nth j w 0) < 1).
Proof.
  intros w u ok hu N. destruct (@both w (fun _ => u) (syst_positions (o := RS) u N) ok) as [idx [E [L H]]].
  - intros; exact hu.
  - apply syst_length.
  - intros i Hi. apply syst_nth; exact Hi.
  - intros i k Hk. apply Rplus_le_compat_l. apply le_INR; lia.
  - fold N in L, H. exists idx. split; [exact E|]. split; [exact L|].
    assert (NR : (0 < N)%nat -> 0 < INR N) by (intros; apply lt_0_INR; assumption).
    split; [intros i Hi; split; [apply H, Hi|eapply inverse_weight, H, Hi]|]. split.
    + intros i k Hk. apply (inverse_mono (w := w) (proj1 ok) (H i ltac:(lia)) (H k ltac:(lia))).
      apply Rmult_le_compat_r; [left; apply Rinv_0_lt_compat, NR; lia|]. apply Rplus_le_compat_l, le_INR; lia.
    + intros j Hj. specialize (NR ltac:(lia)). rewrite (count_occ_cnt j L).
      set (x := INR N * upto w j - u). set (y := INR N * upto w (S j) - u).
      assert (Exy : y - x = INR N * nth j w 0) by (unfold x, y; rewrite upto_S by exact Hj; ring).
      assert (xy : x <= y) by (pose proof (nth_nonneg (w := w) j (proj1 ok)); pose proof (Rmult_le_pos _ _ (Rlt_le _ _ NR) H0); lra).
      pose proof (upto_range j ok) as r1. pose proof (upto_range (S j) ok) as r2.
      assert (x1 : -1 < x). { unfold x. pose proof (Rmult_le_pos _ _ (Rlt_le _ _ NR) (proj1 r1)). lra. }
      assert (y1 : y <= INR N). { unfold y. pose proof (Rmult_le_compat_l _ _ _ (Rlt_le _ _ NR) (proj2 r2)). lra. }
      assert (Hc : forall i, (i < N)%nat -> (nth i idx 0 =? j)%nat = true <-> x <= INR i < y).
      { intros i Hi. destruct (H i Hi) as [B1 [B2 B3]]. split.
        - intros e. apply Nat.eqb_eq in e. rewrite e in *.
          apply (Rmult_le_compat_l (INR N)) in B2; [|lra]. apply (Rmult_lt_compat_l (INR N)) in B3; [|lra].
          replace (INR N * ((u + INR i) / INR N)) with (u + INR i) in * by (field; lra). unfold x, y. lra.
        - intros [A1 A2]. apply Nat.eqb_eq.
          assert (J : inverse_cdf w ((u + INR i) / INR N) j).
          { split; [exact Hj|]. unfold x, y in *.
            split; [apply (Rmult_le_reg_l (INR N))|apply (Rmult_lt_reg_l (INR N))]; try exact NR;
              replace (INR N * ((u + INR i) / INR N)) with (u + INR i) by (field; lra); lra. }
          apply Nat.le_antisymm; [apply (inverse_mono (proj1 ok) (H i Hi) J)|apply (inverse_mono (proj1 ok) J (H i Hi))]; lra. }
      pose proof (@cnt_lt x N ltac:(lra)) as c1. pose proof (@cnt_lt y N ltac:(lra)) as c2.
      assert (U : (cnt (fun i => (nth i idx 0 =? j)%nat) N + cnt (fun i => Rltb (INR i) x) N <= cnt (fun i => Rltb (INR i) y) N)%nat).
      { apply cnt_disj. intros i Hi. split.
        - intros e. apply Hc in e; [|exact Hi]. apply Rltb_false. lra.
        - intros [e|e]; [apply Hc in e; [|exact Hi]|apply Rltb_true in e]; apply Rltb_true; lra. }
      assert (D : (cnt (fun i => Rltb (INR i) y) N <= cnt (fun i => (nth i idx 0 =? j)%nat) N + cnt (fun i => Rltb (INR i) x) N)%nat).
      { apply cnt_le2. intros i Hi e. apply Rltb_true in e. destruct (Rlt_dec (INR i) x) as [l|n].
        - right. apply Rltb_true; exact l.
        - left. apply Hc; [exact Hi|lra]. }
      apply le_INR in U. apply le_INR in D. rewrite plus_INR in U, D. rewrite <- Exy. apply Rabs_def1; lra.
Qed.
Print Assumptions C32_systematic.

(** ** C32: stratified resampling *)
Theorem C32_stratified : forall (w us : list R), weights_ok w -> length us = length w -> (forall x, In x us -> 0 <= x < 1) ->
  let N := length w in
  exists idx, stratified_resample (o := RS) w us = Ok idx /\ length idx = N /\
    (forall i, (i < N)%nat -> inverse_cdf w ((nth i us 0 + INR i) / INR N) (nth i idx 0%nat) /\ 0 < nth (nth i idx 0%nat) w 0) /\
    (forall i k, (i <= k < N)%nat -> (nth i idx 0 <= nth k idx 0)%nat) /\
    (forall j, (j < N)%nat -> Rabs (INR (count_occ Nat.eq_dec idx j) - INR N * nth j w 0) < 2).
Proof.
  intros w us ok Lu hu N.
  assert (hv : forall i, (i < N)%nat -> 0 <= nth i us 0 < 1) by (intros i Hi; apply hu, nth_In; unfold N in Hi; lia).
  assert (mono : forall i k, (i <= k < N)%nat -> nth i us 0 + INR i <= nth k us 0 + INR k).
  { intros i k Hk. destruct (Nat.eq_dec i k) as [->|n]; [lra|]. pose proof (hv i ltac:(lia)). pose proof (hv k ltac:(lia)).
    assert (INR i + 1 <= INR k) by (rewrite <- S_INR; apply le_INR; lia). lra. }
  destruct (@both w (fun i => nth i us 0) (strat_positions (o := RS) us N) ok) as [idx [E [L H]]].
  - exact hv.
  - apply strat_length; exact Lu.
  - intros i Hi. apply strat_nth; [exact Lu|exact Hi].
  - exact mono.
  - fold N in L, H. exists idx. split; [exact E|]. split; [exact L|].
    assert (NR : (0 < N)%nat -> 0 < INR N) by (intros; apply lt_0_INR; assumption).
    split; [intros i Hi; split; [apply H, Hi|eapply inverse_weight, H, Hi]|]. split.
    + intros i k Hk. apply (inverse_mono (w := w) (proj1 ok) (H i ltac:(lia)) (H k ltac:(lia))).
      apply Rmult_le_compat_r; [left; apply Rinv_0_lt_compat, NR; lia|]. apply mono; exact Hk.
    + intros j Hj. specialize (NR ltac:(lia)). rewrite (count_occ_cnt j L).
      set (x := INR N * upto w j). set (y := INR N * upto w (S j)).
      assert (Exy : y - x = INR N * nth j w 0) by (unfold x, y; rewrite upto_S by exact Hj; ring).
      assert (xy : x <= y) by (pose proof (nth_nonneg (w := w) j (proj1 ok)); pose proof (Rmult_le_pos _ _ (Rlt_le _ _ NR) H0); lra).
      pose proof (upto_range j ok) as r1. pose proof (upto_range (S j) ok) as r2.
      assert (x1 : 0 <= x) by (apply Rmult_le_pos; lra).
      assert (y1 : y <= INR N). { unfold y. pose proof (Rmult_le_compat_l _ _ _ (Rlt_le _ _ NR) (proj2 r2)). lra. }
      assert (Hc : forall i, (i < N)%nat -> (nth i idx 0 =? j)%nat = true <-> x <= nth i us 0 + INR i < y).
      { intros i Hi. destruct (H i Hi) as [B1 [B2 B3]]. split.
        - intros e. apply Nat.eqb_eq in e. rewrite e in *.
          apply (Rmult_le_compat_l (INR N)) in B2; [|lra]. apply (Rmult_lt_compat_l (INR N)) in B3; [|lra].
          replace (INR N * ((nth i us 0 + INR i) / INR N)) with (nth i us 0 + INR i) in * by (field; lra). unfold x, y. lra.
        - intros [A1 A2]. apply Nat.eqb_eq.
          assert (J : inverse_cdf w ((nth i us 0 + INR i) / INR N) j).
          { split; [exact Hj|]. unfold x, y in *.
            split; [apply (Rmult_le_reg_l (INR N))|apply (Rmult_lt_reg_l (INR N))]; try exact NR;
              replace (INR N * ((nth i us 0 + INR i) / INR N)) with (nth i us 0 + INR i) by (field; lra); lra. }
          apply Nat.le_antisymm; [apply (inverse_mono (proj1 ok) (H i Hi) J)|apply (inverse_mono (proj1 ok) J (H i Hi))]; lra. }
      pose proof (@cnt_lt x N ltac:(lra)) as c1. pose proof (@cnt_lt y N ltac:(lra)) as c2.
      pose proof (@cnt_le (x - 1) N ltac:(lra)) as c3. pose proof (@cnt_le (y - 1) N ltac:(lra)) as c4.
      assert (U : (cnt (fun i => (nth i idx 0 =? j)%nat) N + cnt (fun i => Rleb (INR i) (x - 1)) N <= cnt (fun i => Rltb (INR i) y) N)%nat).
      { apply cnt_disj. intros i Hi. specialize (hv i Hi). split.
        - intros e. apply Hc in e; [|exact Hi]. apply Rleb_false. lra.
        - intros [e|e]; [apply Hc in e; [|exact Hi]|apply Rleb_true in e]; apply Rltb_true; lra. }
      assert (D : (cnt (fun i => Rleb (INR i) (y - 1)) N <= cnt (fun i => (nth i idx 0 =? j)%nat) N + cnt (fun i => Rltb (INR i) x) N)%nat).
      { apply cnt_le2. intros i Hi e. specialize (hv i Hi). apply Rleb_true in e. destruct (Rlt_dec (INR i) x) as [l|n].
        - right. apply Rltb_true; exact l.
        - left. apply Hc; [exact Hi|lra]. }
      apply le_INR in U. apply le_INR in D. rewrite plus_INR in U, D. rewrite <- Exy. apply Rabs_def1; lra.
Qed.
Print Assumptions C32_stratified.
