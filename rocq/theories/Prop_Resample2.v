(** * C33: multinomial and residual resampling. *)
From Coq Require Import List Arith Bool ZArith Reals Lra Lia.
From Verif Require Import Ops RealOps Model_DB Model_Resample Prop_Resample.
Import ListNotations.
Set Implicit Arguments.
Unset Strict Implicit.
Local Open Scope nat_scope.

(** ** numpy.searchsorted *)

(** Binary search, any arithmetic: where it stops, the entry before is below the key and the entry there is not. *)
Lemma bsearchE (o : sops) (a : list (sc o)) key : forall fuel lo hi, hi - lo < fuel -> lo <= hi ->
  let r := bsearch fuel a key lo hi in
  lo <= r <= hi /\ (lo < r -> sltb o (nth (r - 1) a (s0 o)) key = true) /\ (r < hi -> sltb o (nth r a (s0 o)) key = false).
Proof.
  induction fuel as [|fuel IH]; intros lo hi Hf Hl r; [lia|]. unfold r; clear r; simpl. destruct (Nat.ltb_spec lo hi) as [L|L].
  2: { replace lo with hi by lia. repeat split; intros; lia. }
  set (mid := lo + (hi - lo) / 2). assert (Hm : lo <= mid < hi).
  { unfold mid. pose proof (Nat.div_lt (hi - lo) 2 ltac:(lia) ltac:(lia)). lia. }
  change (fst (Nat.divmod (hi - lo) 1 0 1)) with ((hi - lo) / 2). fold mid.
  destruct (sltb o (nth mid a (s0 o)) key) eqn:E.
  - destruct (IH (S mid) hi) as [A [B C]]; [lia|lia|]. split; [lia|]. split; [|exact C]. intros _.
    destruct (Nat.eq_dec (bsearch fuel a key (S mid) hi) (S mid)) as [e|n]; [rewrite e; simpl; rewrite Nat.sub_0_r; exact E|apply B; lia].
  - destruct (IH lo mid) as [A [B C]]; [lia|lia|]. split; [lia|]. split; [exact B|]. intros _.
    destruct (Nat.eq_dec (bsearch fuel a key lo mid) mid) as [e|n]; [rewrite e; exact E|apply C; lia].
Qed.

Local Open Scope R_scope.

(** What is asked of searchsorted: a place inside the array if the last entry is not below the key (any array), and in
    a sorted array the first entry not below the key. *)
Definition ss_ok (ss : list R -> list R -> list nat) : Prop := forall a keys,
  length (ss a keys) = length keys /\
  forall i, (i < length keys)%nat -> let j := nth i (ss a keys) 0%nat in let key := nth i keys 0 in
    (a <> [] -> key <= last a 0 -> (j < length a)%nat) /\
    ((forall x y, (x <= y < length a)%nat -> nth x a 0 <= nth y a 0) ->
       (j <= length a)%nat /\ (forall m, (m < j)%nat -> nth m a 0 < key) /\ ((j < length a)%nat -> key <= nth j a 0)).

Lemma last_nth (l : list R) : last l 0 = nth (length l - 1) l 0.
Proof.
  induction l as [|a [|b l] IH]; try reflexivity. change (last (a :: b :: l) 0) with (last (b :: l) 0). rewrite IH.
  simpl length. replace (S (S (length l)) - 1)%nat with (S (S (length l) - 1)) by lia. reflexivity.
Qed.

(** Binary search does it. *)
Theorem C33_searchsorted : ss_ok (searchsorted (o := RS)).
Proof.
  intros a keys. split; [unfold searchsorted; rewrite map_length; reflexivity|]. intros i Hi j key.
  assert (Ej : j = bsearch (o := RS) (S (length a)) a key 0 (length a)).
  { unfold j, searchsorted. rewrite (nth_indep _ 0%nat ((fun k => bsearch (o := RS) (S (length a)) a k 0 (length a)) 0)) by (rewrite map_length; exact Hi).
    rewrite (map_nth (fun k => bsearch (o := RS) (S (length a)) a k 0 (length a))). reflexivity. }
  destruct (@bsearchE RS a key (S (length a)) 0 (length a)) as [A [B C]]; [lia|lia|]. rewrite <- Ej in *. clear Ej.
  split.
  - intros ne Hl. destruct (Nat.eq_dec j (length a)) as [e|n]; [|lia]. exfalso.
    assert (0 < j)%nat by (rewrite e; destruct a; [congruence|simpl; lia]). specialize (B H). apply Rltb_true in B.
    rewrite last_nth, <- e in Hl. exact (Rle_not_lt _ _ Hl B).
  - intros sorted. split; [lia|]. split.
    + intros m Hm. specialize (B ltac:(lia)). apply Rltb_true in B.
      exact (Rle_lt_trans _ _ _ (sorted m (j - 1)%nat ltac:(lia)) B).
    + intros Hj. apply Rltb_false. apply C; exact Hj.
Qed.
Print Assumptions C33_searchsorted.

(** ** Multinomial *)
Lemma set_last_length (l : list R) v : length (set_last (o := RS) l v) = length l.
Proof. induction l as [|a [|b l] IH]; try reflexivity. change (S (length (set_last (o := RS) (b :: l) v)) = S (length (b :: l))). rewrite IH; reflexivity. Qed.
Lemma set_last_nth (l : list R) v i : (i < length l)%nat -> nth i (set_last (o := RS) l v) 0 = if (i =? length l - 1)%nat then v else nth i l 0.
Proof.
  revert i; induction l as [|a [|b l] IH]; intros i H; [inversion H| |].
  - simpl in H. replace i with 0%nat by lia. reflexivity.
  - change (set_last (o := RS) (a :: b :: l) v) with (a :: set_last (o := RS) (b :: l) v). destruct i as [|i]; [reflexivity|].
    change (nth (S i) (a :: set_last (o := RS) (b :: l) v) 0) with (nth i (set_last (o := RS) (b :: l) v) 0).
    rewrite IH by (simpl in *; lia).
    replace (S i =? length (a :: b :: l) - 1)%nat with (i =? length (b :: l) - 1)%nat; [reflexivity|].
    simpl. rewrite Nat.sub_0_r. reflexivity.
Qed.
Lemma set_last_last (l : list R) v : l <> [] -> last (set_last (o := RS) l v) 0 = v.
Proof.
  intros n. rewrite last_nth. rewrite set_last_length. assert (length l <> 0%nat) by (destruct l; simpl; congruence).
  rewrite set_last_nth by lia. rewrite Nat.eqb_refl. reflexivity.
Qed.

(** Draw i gives the first index whose cumulative weight reaches it. *)
Theorem C33_multinomial : forall ss (w us : list R), ss_ok ss -> weights_ok w -> length us = length w ->
  (forall x, In x us -> 0 <= x < 1) ->
  exists idx, multinomial_resample (o := RS) ss w us = Ok idx /\ length idx = length w /\
    forall i, (i < length w)%nat -> let j := nth i idx 0%nat in
      (j < length w)%nat /\ (forall k, (k < j)%nat -> upto w (S k) < nth i us 0) /\ nth i us 0 <= upto w (S j) /\
      (0 < nth i us 0 -> 0 < nth j w 0).
Proof.
  intros ss w us S ok L hu.
  assert (nw : w <> []) by (intros ->; destruct ok as [_ s]; simpl in s; lra).
  assert (Nw : length w <> 0%nat) by (destruct w; simpl; congruence).
  exists (ss (set_last (o := RS) (cumsum (o := RS) w) 1) us).
  split; [destruct w; [congruence|reflexivity]|].
  set (a := set_last (o := RS) (cumsum (o := RS) w) 1). destruct (S a us) as [Hl H]. split; [congruence|].
  assert (La : @length R a = length w) by (unfold a; rewrite (set_last_length (cumsum (o := RS) w)); apply cumsum_lengthR).
  assert (Ea : forall k, (k < length w)%nat -> @nth R k a 0 = upto w (Datatypes.S k)).
  { intros k Hk. unfold a. rewrite set_last_nth by (rewrite cumsum_lengthR; exact Hk). rewrite cumsum_lengthR.
    destruct (Nat.eqb_spec k (length w - 1)) as [->|_].
    - rewrite upto_all by lia. symmetry; apply ok.
    - apply cumsumE; exact Hk. }
  intros i Hi j. rewrite L in H. destruct (H i Hi) as [A B]. fold j in A, B.
  assert (hi : 0 <= nth i us 0 < 1) by (apply hu, nth_In; rewrite L; exact Hi).
  assert (Hj : (j < length w)%nat).
  { rewrite <- La. apply A.
    - intros e. rewrite e in La. simpl in La. lia.
    - unfold a. rewrite set_last_last; [lra|]. intros e. pose proof (cumsum_lengthR w) as e2. rewrite e in e2. simpl in e2. lia. }
  destruct B as [_ [B1 B2]].
  { intros x y Hxy. rewrite La in Hxy. rewrite !Ea by lia. apply upto_mono; [apply ok|lia]. }
  rewrite La in B2. specialize (B2 Hj). rewrite Ea in B2 by exact Hj. split; [exact Hj|].
  assert (B3 : forall k, (k < j)%nat -> upto w (Datatypes.S k) < nth i us 0).
  { intros k Hk. specialize (B1 k Hk). rewrite Ea in B1 by lia. exact B1. }
  split; [exact B3|]. split; [exact B2|]. intros hp. rewrite upto_S in B2 by exact Hj.
  clearbody j. destruct j as [|k]; [unfold upto in B2; simpl in B2; lra|]. specialize (B3 k ltac:(lia)). lra.
Qed.
Print Assumptions C33_multinomial.

(** A draw of exactly 0, which random() can return, selects particle 0 whatever its weight. *)
Theorem C33_zero_weight_refuted : forall ss, ss_ok ss -> weights_ok [0; 1] ->
  exists j, multinomial_resample (o := RS) ss [0; 1] [0; 1/2] = Ok [0%nat; j].
Proof.
  intros ss S ok. destruct (@C33_multinomial ss [0; 1] [0; 1/2] S ok eq_refl) as [idx [E [L H]]].
  { intros x [<-|[<-|[]]]; lra. }
  destruct idx as [|a [|b [|c idx]]]; try discriminate L. rewrite E. exists b. f_equal. f_equal.
  destruct (H 0%nat ltac:(simpl; lia)) as [A [B _]]. simpl in A, B. destruct a as [|a]; [reflexivity|].
  specialize (B 0%nat ltac:(lia)). unfold upto in B; simpl in B. lra.
Qed.
Example C33_zero_weight_ok : weights_ok [0; 1].
Proof. split; [intros x [<-|[<-|[]]]; lra|simpl; lra]. Qed.
Print Assumptions C33_zero_weight_refuted.

(** ** Residual *)
Definition rfloor (x : R) : Z := Int_part x.
Lemma rfloorE x : IZR (rfloor x) <= x < IZR (rfloor x) + 1.
Proof. unfold rfloor. destruct (base_Int_part x). lra. Qed.
Lemma rfloor_pos x : 0 <= x -> (0 <= rfloor x)%Z.
Proof. intros H. pose proof (rfloorE x). assert (-1 < IZR (rfloor x)) by lra. apply lt_IZR in H1. lia. Qed.

Definition zsum (l : list Z) : Z := fold_right Z.add 0%Z l.

Lemma copies_length i l : (forall c, In c l -> (0 <= c)%Z) -> Z.of_nat (length (copies_from i l)) = zsum l.
Proof.
  revert i; induction l as [|c l IH]; intros i H; [reflexivity|]. simpl. rewrite app_length, repeat_length, Nat2Z.inj_add, IH.
  - rewrite Z2Nat.id; [reflexivity|apply H; left; reflexivity].
  - intros; apply H; right; assumption.
Qed.
Lemma copies_count i l j : count_occ Nat.eq_dec (copies_from i l) j = if (j <? i)%nat then 0%nat else Z.to_nat (nth (j - i) l 0%Z).
Proof.
  revert i; induction l as [|c l IH]; intros i.
  - simpl. destruct (Nat.ltb_spec j i); [reflexivity|]. destruct (j - i)%nat; reflexivity.
  - simpl copies_from. rewrite count_occ_app, IH.
    assert (C : forall n, count_occ Nat.eq_dec (repeat i n) j = if (j =? i)%nat then n else 0%nat).
    { induction n as [|n IHn]; simpl; [destruct (j =? i)%nat; reflexivity|]. rewrite IHn. destruct (Nat.eq_dec i j) as [->|ne].
      - rewrite Nat.eqb_refl. reflexivity.
      - destruct (Nat.eqb_spec j i); [congruence|reflexivity]. }
    rewrite C. destruct (Nat.eqb_spec j i) as [->|ne].
    + rewrite Nat.sub_diag. destruct (Nat.ltb_spec i (S i)); [|lia]. destruct (Nat.ltb_spec i i); [lia|]. simpl. lia.
    + destruct (Nat.ltb_spec j (S i)), (Nat.ltb_spec j i); try lia. replace (j - i)%nat with (S (j - S i)) by lia. reflexivity.
Qed.
Lemma copies_range i l x : In x (copies_from i l) -> (i <= x < i + length l)%nat.
Proof.
  revert i; induction l as [|c l IH]; intros i H; [destruct H|]. simpl in *. apply in_app_or in H. destruct H as [H|H].
  - apply repeat_spec in H. lia.
  - apply IH in H. lia.
Qed.

Section Res.
Variable w : list R.
Hypothesis ok : weights_ok w.
Let N := length w.
Let num := num_copies (o := RS) rfloor w.

Lemma num_length : length num = N.
Proof. unfold num, num_copies. rewrite map_length. reflexivity. Qed.
Lemma num_nth i : (i < N)%nat -> nth i num 0%Z = rfloor (INR N * nth i w 0).
Proof.
  intros H. unfold num, num_copies. change (smul RS) with Rmult. change (snat RS (length w)) with (INR N).
  rewrite (nth_indep _ 0%Z (rfloor (INR N * 0))) by (rewrite map_length; exact H).
  exact (map_nth (fun x => rfloor (INR N * x)) w 0 i).
Qed.
Lemma num_in c : In c num -> exists x, In x w /\ c = rfloor (INR N * x).
Proof. unfold num, num_copies. intros H. apply in_map_iff in H. destruct H as [x [<- H]]. exists x. split; [exact H|reflexivity]. Qed.
Lemma num_pos c : In c num -> (0 <= c)%Z.
Proof. intros H. destruct (num_in H) as [x [Hx ->]]. apply rfloor_pos. apply Rmult_le_pos; [apply pos_INR|apply ok; exact Hx]. Qed.

(** Between N - N (excluded) and N copies in all, so at least one. *)
Lemma num_sum : IZR (zsum num) <= INR N /\ (0 < zsum num)%Z.
Proof.
  assert (G : forall l, IZR (zsum (map (fun x => rfloor (INR N * x)) l)) <= INR N * rsum l /\
     (l <> [] -> INR N * rsum l < IZR (zsum (map (fun x => rfloor (INR N * x)) l)) + INR (length l))).
  { induction l as [|x l [I1 I2]]; [simpl; split; [lra|congruence]|]. pose proof (rfloorE (INR N * x)).
    change (zsum (map (fun x0 : R => rfloor (INR N * x0)) (x :: l))) with (rfloor (INR N * x) + zsum (map (fun x0 : R => rfloor (INR N * x0)) l))%Z.
    rewrite plus_IZR. change (rsum (x :: l)) with (x + rsum l). split; [lra|]. intros _. change (length (x :: l)) with (S (length l)). rewrite S_INR.
    destruct l as [|y l]; [simpl; lra|]. specialize (I2 ltac:(discriminate)). lra. }
  change num with (map (fun x => rfloor (INR N * x)) w). destruct (G w) as [G1 G2]. destruct ok as [p s]. rewrite s in *.
  assert (w <> []) by (intros ->; simpl in s; lra). specialize (G2 H). fold N in G2. split; [lra|].
  apply lt_IZR. lra.
Qed.
End Res.

(** Exactly N indexes, all in range, the copies first: floor(N w_j) of each j at least. *)
Theorem C33_residual_copies : forall ss (w us : list R), ss_ok ss -> weights_ok w ->
  let k := zsum (num_copies (o := RS) rfloor w) in
  (k <= Z.of_nat (length w))%Z /\
  (length us = (length w - Z.to_nat k)%nat -> (forall x, In x us -> 0 <= x < 1) ->
   exists idx, residual_resample (o := RS) ss rfloor w us = Ok idx /\ length idx = length w /\
     (forall x, In x idx -> (x < length w)%nat) /\
     (forall j, (j < length w)%nat -> (rfloor (INR (length w) * nth j w 0)%R <= Z.of_nat (count_occ Nat.eq_dec idx j))%Z)).
Proof.
  intros ss w us S ok k.
  destruct (num_sum ok) as [K1 K2]. fold k in K1, K2. rewrite INR_IZR_INZ in K1. apply le_IZR in K1. split; [exact K1|].
  intros L hu. assert (nw : w <> []) by (intros ->; destruct ok as [_ s]; simpl in s; lra).
  pose proof (copies_length 0 (num_pos ok)) as CL. fold k in CL.
  set (cp := copies_from 0 (num_copies (o := RS) rfloor w)) in *.
  exists (cp ++ ss (set_last (o := RS) (cumsum (o := RS) (residual (o := RS) rfloor w)) 1) us).
  assert (E : residual_resample (o := RS) ss rfloor w us = Ok (cp ++ ss (set_last (o := RS) (cumsum (o := RS) (residual (o := RS) rfloor w)) 1) us)).
  { unfold residual_resample. fold cp. change (@length (sc RS) w) with (@length R w).
    destruct (Nat.ltb_spec (length w) (length cp)); [lia|]. destruct w; [congruence|reflexivity]. }
  split; [exact E|]. clear E.
  set (a := set_last (o := RS) (cumsum (o := RS) (residual (o := RS) rfloor w)) 1).
  destruct (S a us) as [SL SI].
  assert (Lr : @length R (residual (o := RS) rfloor w) = length w).
  { unfold residual. rewrite !map_length, combine_length. rewrite num_length. apply Nat.min_id. }
  assert (La : @length R a = length w).
  { unfold a. rewrite (set_last_length (cumsum (o := RS) (residual (o := RS) rfloor w))), (cumsum_lengthR (residual (o := RS) rfloor w)). exact Lr. }
  assert (Nw : length w <> 0%nat) by (destruct w; simpl; congruence).
  split; [rewrite app_length, SL, L; lia|]. split.
  - intros x H. apply in_app_or in H. destruct H as [H|H].
    + apply copies_range in H. rewrite num_length in H. lia.
    + apply (In_nth _ _ 0%nat) in H. destruct H as [i [Hi <-]]. rewrite SL in Hi. rewrite <- La. apply (SI i Hi).
      * intros e. rewrite e in La. simpl in La. lia.
      * unfold a. rewrite set_last_last; [|intros e; pose proof (cumsum_lengthR (residual (o := RS) rfloor w)) as e2; rewrite e, Lr in e2; simpl in e2; lia].
        left. apply hu, nth_In, Hi.
  - intros j Hj. rewrite count_occ_app, Nat2Z.inj_add. unfold cp at 1. rewrite copies_count. simpl. rewrite Nat.sub_0_r, num_nth by exact Hj.
    rewrite Z2Nat.id; [lia|]. apply rfloor_pos, Rmult_le_pos; [apply pos_INR|apply nth_nonneg, ok].
Qed.
Print Assumptions C33_residual_copies.

(** How many copies a list of (possibly negative) counts asks for. *)
Fixpoint asked (num : list Z) : nat := match num with [] => 0%nat | c :: r => (Z.to_nat c + asked r)%nat end.

(** Too many copies is the only failure besides an empty weight vector, whatever the arithmetic. *)
Theorem C33_residual_overflow : forall (o : sops) ss (fl : sc o -> Z) (w us : list (sc o)),
  let N := length w in
  let num := map (fun x => fl (smul o (snat o N) x)) w in
  (residual_resample (o := o) ss fl w us = Err IndexError <-> w = [] \/ (N < asked num)%nat) /\
  (residual_resample (o := o) ss fl w us = Err IndexError \/
   exists idx, residual_resample (o := o) ss fl w us = Ok idx /\ (asked num <= N)%nat).
Proof.
  intros o ss fl w us N num.
  assert (A : forall num i, length (copies_from i num) = asked num).
  { induction num0 as [|c r IH]; intros i; [reflexivity|]. cbn [copies_from asked]. rewrite app_length, repeat_length, IH. reflexivity. }
  unfold residual_resample. rewrite A. change (num_copies fl w) with num. fold N.
  destruct (Nat.ltb_spec N (asked num)).
  - split; [tauto|left; reflexivity].
  - destruct w as [|a w'].
    + split; [tauto|left; reflexivity].
    + split; [|right; eexists; split; [reflexivity|assumption]]. split; [discriminate|intros [e|e]; [discriminate|lia]].
Qed.
Print Assumptions C33_residual_overflow.

(** So nonnegative weights whose sum is 2 or more (someone forgot to normalise) always raise. *)
Theorem C33_residual_unnormalised : forall ss (w us : list R), (forall x, In x w -> 0 <= x) -> 2 <= rsum w ->
  residual_resample (o := RS) ss rfloor w us = Err IndexError.
Proof.
  intros ss w us P S. apply (proj1 (C33_residual_overflow (o := RS) ss rfloor w us)).
  assert (nw : w <> []) by (intros ->; simpl in S; lra).
  right. change (smul RS) with Rmult. change (snat RS (length w)) with (INR (length w)).
  set (N := length w).
  assert (G : forall l, (forall x, In x l -> 0 <= x) -> l <> [] ->
    INR N * rsum l < INR (asked (map (fun x => rfloor (INR N * x)) l)) + INR (length l)).
  { induction l as [|x l IH]; intros Pl nl; [congruence|]. pose proof (rfloorE (INR N * x)) as F.
    cbn [map asked length]. change (rsum (x :: l)) with (x + rsum l). rewrite plus_INR, S_INR.
    assert (Z0 : (0 <= rfloor (INR N * x))%Z) by (apply rfloor_pos, Rmult_le_pos; [apply pos_INR|apply Pl; left; reflexivity]).
    rewrite (INR_IZR_INZ (Z.to_nat _)), Z2Nat.id by exact Z0.
    destruct l as [|y l]; [simpl; lra|]. specialize (IH (fun z h => Pl z (or_intror h)) ltac:(discriminate)). lra. }
  specialize (G w P nw). fold N in G. apply INR_lt.
  assert (0 < INR N) by (apply lt_0_INR; unfold N; destruct w; simpl; [congruence|lia]).
  assert (INR N * 2 <= INR N * rsum w) by (apply Rmult_le_compat_l; lra). change (sc RS) with R. fold N. lra.
Qed.
Print Assumptions C33_residual_unnormalised.
Example C33_unnormalised_example : (forall x, In x [3; 0; 5/2] -> 0 <= x) /\ 2 <= rsum [3; 0; 5/2].
Proof. split; [|simpl; lra]. intros x [<-|[<-|[<-|[]]]]; lra. Qed.

(** The comment says "get fractional part".  It is not: the sum the code normalises by is 1 - k, k the number of copies
    already made, and that is never positive; a particle that has no copy yet but is due a share of the rest gets a
    negative weight (k > 1), or the division is by zero (k = 1). *)
Theorem C33_fractional_part_refuted : forall w : list R, weights_ok w ->
  let N := length w in let num := num_copies (o := RS) rfloor w in let k := zsum num in
  (0 < k)%Z /\
  pysum (o := RS) (map (fun p => fst p - szof RS (snd p)) (combine w num)) = 1 - IZR k /\
  (forall i, (i < N)%nat -> 0 < INR N * nth i w 0 < 1 -> (1 < k)%Z -> nth i (residual (o := RS) rfloor w) 0 < 0).
Proof.
  intros w ok N num k. destruct (num_sum ok) as [_ K2]. fold num k in K2. split; [exact K2|].
  assert (Sz : forall z, (0 <= z)%Z -> szof RS z = IZR z).
  { intros z Hz. unfold szof. destruct (Z.ltb_spec z 0); [lia|]. change (snat RS (Z.to_nat z)) with (INR (Z.to_nat z)). rewrite INR_IZR_INZ, Z2Nat.id by exact Hz. reflexivity. }
  assert (PS : forall (l : list R) acc, fold_left Rplus l acc = acc + rsum l).
  { induction l as [|a l IH]; intros acc; simpl; [lra|]. rewrite IH. lra. }
  assert (E : pysum (o := RS) (map (fun p => fst p - szof RS (snd p)) (combine w num)) = 1 - IZR k).
  { unfold pysum. change (sadd RS) with Rplus. rewrite PS. change (s0 RS) with 0. rewrite <- (proj2 ok).
    assert (P : forall c, In c num -> (0 <= c)%Z) by (intros c; apply (num_pos ok)). unfold k. clear - P Sz ok.
    assert (L : length num = length w) by apply num_length. clearbody num. clear ok. revert num P L.
    induction w as [|a l IH]; intros [|c num] P L; try discriminate L; [simpl; lra|].
    simpl combine. simpl map. change (rsum ?x) with (rsum x). cbn [rsum fst snd].
    rewrite Sz by (apply P; left; reflexivity). change (zsum (c :: num)) with (c + zsum num)%Z. rewrite plus_IZR.
    specialize (IH num (fun c' h => P c' (or_intror h)) ltac:(simpl in L; lia)). lra. }
  split; [exact E|]. intros i Hi Hw Hk.
  assert (Nn : nth i num 0%Z = 0%Z).
  { unfold num. rewrite num_nth by exact Hi. fold N. pose proof (rfloorE (INR N * nth i w 0)). 
    assert (rfloor (INR N * nth i w 0)%R < 1)%Z by (apply lt_IZR; lra).
    assert (-1 < rfloor (INR N * nth i w 0)%R)%Z by (apply lt_IZR; lra). lia. }
  unfold residual. fold num. change (ssub RS) with Rminus. change (sdiv RS) with Rdiv.
  change (fun p : R * Z => fst p - szof RS (snd p)) with (fun p : R * Z => fst p - szof RS (snd p)) in *.
  set (r := map (fun p : R * Z => fst p - szof RS (snd p)) (combine w num)) in *.
  change (nth i (map (fun a : R => a / pysum (o := RS) r) r) 0 < 0). rewrite E.
  assert (Lr : length r = N) by (unfold r; rewrite map_length, combine_length; unfold num; rewrite num_length; apply Nat.min_id).
  rewrite (nth_indep _ 0 ((fun a => a / (1 - IZR k)) 0)) by (rewrite map_length, Lr; exact Hi).
  rewrite (map_nth (fun a => a / (1 - IZR k))).
  assert (En : nth i r 0 = nth i w 0).
  { unfold r. rewrite (nth_indep _ 0 ((fun p : R * Z => fst p - szof RS (snd p)) (0, 0%Z))) by (fold r; rewrite Lr; exact Hi).
    rewrite (map_nth (fun p : R * Z => fst p - szof RS (snd p))), combine_nth by (symmetry; apply num_length).
    cbn [fst snd]. rewrite Nn, Sz by lia. lra. }
  rewrite En. apply IZR_lt in Hk. assert (0 < INR N) by (apply lt_0_INR; lia).
  assert (0 < nth i w 0). { destruct (Rle_lt_dec (nth i w 0) 0) as [le|lt]; [|exact lt]. pose proof (Rmult_le_compat_l _ _ _ (Rlt_le _ _ H) le). lra. }
  apply (Rmult_lt_reg_r (- (1 - IZR k))); [lra|]. rewrite Rmult_0_l. unfold Rdiv.
  replace (nth i w 0 * / (1 - IZR k) * - (1 - IZR k)) with (- nth i w 0) by (field; lra). lra.
Qed.
Print Assumptions C33_fractional_part_refuted.

(** Three particles of weight 1/2, 2/5, 1/10: one place is left after one copy of each of the first two.  The fractional
    parts are 1/2, 1/5, 3/10, but no draw selects particle 2. *)
Theorem C33_residual_never_drawn_refuted : forall u, 0 <= u < 1 ->
  residual_resample (o := RS) (searchsorted (o := RS)) rfloor [1/2; 2/5; 1/10] [u] = Ok [0%nat; 1%nat; 0%nat] \/
  residual_resample (o := RS) (searchsorted (o := RS)) rfloor [1/2; 2/5; 1/10] [u] = Ok [0%nat; 1%nat; 1%nat].
Proof.
  intros u Hu.
  assert (F : forall x z, IZR z <= x < IZR z + 1 -> rfloor x = z).
  { intros x z H. pose proof (rfloorE x). assert (rfloor x < z + 1)%Z by (apply lt_IZR; rewrite plus_IZR; lra).
    assert (z < rfloor x + 1)%Z by (apply lt_IZR; rewrite plus_IZR; lra). lia. }
  assert (E : num_copies (o := RS) rfloor [1/2; 2/5; 1/10] = [1; 1; 0]%Z).
  { unfold num_copies. simpl. repeat f_equal; apply F; simpl; lra. }
  assert (RE : residual (o := RS) rfloor [1/2; 2/5; 1/10] = [1/2; 3/5; -1/10]).
  { unfold residual. rewrite E. assert (Z1 : szof RS 1 = 1) by reflexivity. assert (Z0 : szof RS 0 = 0) by reflexivity.
    cbn [combine map fst snd]. rewrite Z1, Z0. unfold pysum. cbn [fold_left]. rs.
    replace (0 + (1 / 2 - 1) + (2 / 5 - 1) + (1 / 10 - 0)) with (- (1)) by lra. f_equal; [field|]. f_equal; [field|]. f_equal; field. }
  unfold residual_resample. rewrite E, RE. simpl.
  assert (M : forall x y, x < y -> Rltb x y = true) by (intros; apply Rltb_true; assumption).
  assert (Q : Rltb (1/2 + 3/5) u = false) by (apply Rltb_false; lra). rewrite Q. simpl.
  destruct (Rltb (1/2) u); [right|left]; reflexivity.
Qed.
Print Assumptions C33_residual_never_drawn_refuted.
