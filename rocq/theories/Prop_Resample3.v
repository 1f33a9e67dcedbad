(** * C68: systematic, stratified and multinomial resampling are unbiased. *)
From Coq Require Import Reals Lra Lia List Bool.
From Coquelicot Require Import Coquelicot.
From Verif Require Import Ops RealOps Model_Resample Prop_Resample Prop_Resample2.
Import ListNotations.
Local Open Scope R_scope.

(** x cut off to [0, 1]. *)
Definition cl (x : R) : R := Rmax 0 (Rmin 1 x).
Lemma cl_mono x y : x <= y -> cl x <= cl y.
Proof. intros h. unfold cl. apply Rle_max_compat_l. apply Rle_min_compat_l. exact h. Qed.
Lemma cl_range x : 0 <= cl x <= 1.
Proof. unfold cl. split; [apply Rmax_l|]. apply Rmax_lub; [lra|apply Rmin_l]. Qed.
Lemma cl_lt x u : 0 < u < 1 -> u < cl x -> u < x.
Proof. intros hu h. unfold cl, Rmax, Rmin in h. destruct (Rle_dec 1 x); destruct (Rle_dec _ _); lra. Qed.
Lemma cl_gt x u : 0 < u < 1 -> cl x < u -> x < u.
Proof. intros hu h. unfold cl, Rmax, Rmin in h. destruct (Rle_dec 1 x); destruct (Rle_dec _ _); lra. Qed.

(** The integral over [0, 1] of a function that is 1 on (a, b) and 0 outside [a, b]. *)
Lemma ind_RInt (f : R -> R) a b : a <= b -> (forall u, 0 < u < 1 -> a < u < b -> f u = 1) ->
  (forall u, 0 < u < 1 -> u < a \/ b < u -> f u = 0) -> is_RInt f 0 1 (cl b - cl a).
Proof.
  intros ab f1 f0. pose proof (cl_range a) as ra. pose proof (cl_range b) as rb. pose proof (cl_mono _ _ ab) as m.
  replace (cl b - cl a) with (((cl a - 0) * 0 + (cl b - cl a) * 1) + (1 - cl b) * 0) by ring.
  apply (is_RInt_Chasles (V := R_NormedModule) f 0 (cl b) 1 ((cl a - 0) * 0 + (cl b - cl a) * 1) ((1 - cl b) * 0));
    [apply (is_RInt_Chasles (V := R_NormedModule) f 0 (cl a) (cl b) ((cl a - 0) * 0) ((cl b - cl a) * 1))|].
  - apply (is_RInt_ext (fun _ => 0)); [|apply (is_RInt_const (V := R_NormedModule) 0 (cl a) 0)].
    intros u. rewrite Rmin_left, Rmax_right by lra. intros hu. symmetry. apply f0; [lra|]. left. apply cl_lt; lra.
  - apply (is_RInt_ext (fun _ => 1)); [|apply (is_RInt_const (V := R_NormedModule) (cl a) (cl b) 1)].
    intros u. rewrite Rmin_left, Rmax_right by lra. intros hu. symmetry. apply f1; [lra|]. split; [apply cl_gt; lra|apply cl_lt; lra].
  - apply (is_RInt_ext (fun _ => 0)); [|apply (is_RInt_const (V := R_NormedModule) (cl b) 1 0)].
    intros u. rewrite Rmin_left, Rmax_right by lra. intros hu. symmetry. apply f0; [lra|]. right. apply cl_gt; lra.
Qed.

Fixpoint nsum (f : nat -> R) (N : nat) : R := match N with O => 0 | S k => nsum f k + f k end.
Lemma nsum_ext f g N : (forall i, (i < N)%nat -> f i = g i) -> nsum f N = nsum g N.
Proof. induction N; intros h; [reflexivity|]. simpl. rewrite IHN, h by (intros; try apply h; lia). reflexivity. Qed.
Lemma nsum_minus f g N : nsum (fun i => f i - g i) N = nsum f N - nsum g N.
Proof. induction N; simpl; [lra|rewrite IHN; lra]. Qed.
Lemma nsum_RInt (f : nat -> R -> R) (v : nat -> R) N : (forall i, (i < N)%nat -> is_RInt (f i) 0 1 (v i)) ->
  is_RInt (fun u => nsum (fun i => f i u) N) 0 1 (nsum v N).
Proof.
  induction N; intros h; simpl.
  - replace 0 with ((1 - 0) * 0) at 2 by ring. apply (is_RInt_const (V := R_NormedModule) 0 1 0).
  - apply (is_RInt_plus (V := R_NormedModule) (fun u => nsum (fun i => f i u) N) (f N)); [apply IHN; intros; apply h; lia|apply h; lia].
Qed.
Lemma cl_sum x N : 0 <= x -> nsum (fun i => cl (x - INR i)) N = Rmin x (INR N).
Proof.
  intros hx. induction N; [simpl; rewrite Rmin_right; [reflexivity|exact hx]|].
  simpl nsum. rewrite IHN, S_INR. unfold cl, Rmin, Rmax.
  destruct (Rle_dec x (INR N)); destruct (Rle_dec x (INR N + 1)); destruct (Rle_dec 1 (x - INR N)); destruct (Rle_dec _ _); lra.
Qed.
Lemma cnt_nsum (P : nat -> bool) N : INR (cnt P N) = nsum (fun i => if P i then 1 else 0) N.
Proof. induction N; [reflexivity|]. rewrite cnt_S, plus_INR, IHN. simpl. destruct (P N); reflexivity. Qed.

(** The number of times index j occurs in the answer (0 for an exception). *)
Definition copies (r : res (list nat)) (j : nat) : R := match r with Ok idx => INR (count_occ Nat.eq_dec idx j) | Err _ => 0 end.

Lemma inverse_unique w p j k : (forall x, In x w -> 0 <= x) -> inverse_cdf w p j -> inverse_cdf w p k -> j = k.
Proof.
  intros hw h1 h2. apply Nat.le_antisymm; [apply (inverse_mono hw h1 h2)|apply (inverse_mono hw h2 h1)]; lra.
Qed.

Lemma copies_interval w N i j u : weights_ok w -> length w = N -> (0 < N)%nat -> (j < N)%nat ->
  (inverse_cdf w ((u + INR i) / INR N) j <-> INR N * upto w j - INR i <= u < INR N * upto w (S j) - INR i).
Proof.
  intros ok L hN hj. assert (NR : 0 < INR N) by (apply lt_0_INR; exact hN). unfold inverse_cdf. rewrite L. split.
  - intros [_ [A B]]. apply (Rmult_le_compat_l (INR N)) in A; [|lra]. apply (Rmult_lt_compat_l (INR N)) in B; [|lra].
    replace (INR N * ((u + INR i) / INR N)) with (u + INR i) in A, B by (field; lra). lra.
  - intros [A B]. split; [exact hj|].
    split; [apply (Rmult_le_reg_l (INR N))|apply (Rmult_lt_reg_l (INR N))]; try exact NR;
      replace (INR N * ((u + INR i) / INR N)) with (u + INR i) by (field; lra); lra.
Qed.

(** ** Systematic resampling: the expected number of copies of particle j, over the one uniform draw, is N w_j. *)
Theorem C68_systematic_unbiased : forall (w : list R) (j : nat), weights_ok w -> (j < length w)%nat ->
  is_RInt (fun u => copies (systematic_resample (o := RS) w u) j) 0 1 (INR (length w) * nth j w 0).
Proof.
  intros w j ok hj. set (N := length w) in *. assert (hN : (0 < N)%nat) by lia. assert (NR : 0 < INR N) by (apply lt_0_INR; exact hN).
  set (x := INR N * upto w j). set (y := INR N * upto w (S j)).
  assert (Exy : y - x = INR N * nth j w 0) by (unfold x, y; rewrite upto_S by exact hj; ring).
  pose proof (upto_range j ok) as r1. pose proof (upto_range (S j) ok) as r2.
  assert (xy : x <= y) by (pose proof (nth_nonneg (w := w) j (proj1 ok)) as q; pose proof (Rmult_le_pos _ _ (Rlt_le _ _ NR) q); lra).
  assert (x1 : 0 <= x) by (apply Rmult_le_pos; lra).
  assert (y1 : y <= INR N). { unfold y. pose proof (Rmult_le_compat_l _ _ _ (Rlt_le _ _ NR) (proj2 r2)). lra. }
  apply (is_RInt_ext (fun u => nsum (fun i => if Rle_dec (x - INR i) u then if Rlt_dec u (y - INR i) then 1 else 0 else 0) N)).
  { intros u. rewrite Rmin_left, Rmax_right by lra. intros hu.
    destruct (@C32_systematic w u ok ltac:(lra)) as [idx [E [L [H _]]]]. rewrite E. simpl copies.
    rewrite (count_occ_cnt j L), cnt_nsum. apply nsum_ext. intros i hi. destruct (H i hi) as [G _].
    destruct (Nat.eqb_spec (nth i idx 0%nat) j) as [e|ne].
    - rewrite e in G. apply (copies_interval w N i j u ok eq_refl hN hj) in G. fold x y in G.
      destruct (Rle_dec (x - INR i) u); [|lra]. destruct (Rlt_dec u (y - INR i)); lra.
    - destruct (Rle_dec (x - INR i) u) as [a1|]; [|reflexivity]. destruct (Rlt_dec u (y - INR i)) as [a2|]; [|reflexivity].
      exfalso. apply ne. apply (inverse_unique w _ _ _ (proj1 ok) G).
      apply (copies_interval w N i j u ok eq_refl hN hj). fold x y. lra. }
  rewrite <- Exy.
  replace (y - x) with (nsum (fun i => cl (y - INR i) - cl (x - INR i)) N).
  - apply (nsum_RInt (fun i u => if Rle_dec (x - INR i) u then if Rlt_dec u (y - INR i) then 1 else 0 else 0) (fun i => cl (y - INR i) - cl (x - INR i))).
    intros i hi. apply ind_RInt; [lra|..].
    + intros u _ hu. destruct (Rle_dec _ _); [|lra]. destruct (Rlt_dec _ _); lra.
    + intros u _ hu. destruct (Rle_dec _ _); [|reflexivity]. destruct (Rlt_dec _ _); [lra|reflexivity].
  - rewrite nsum_minus, !cl_sum by lra. rewrite !Rmin_left by lra. reflexivity.
Qed.
Print Assumptions C68_systematic_unbiased.

(** ** Stratified resampling: draw i depends on the i-th uniform number alone, through a function J i, and the expected
    numbers of times the N draws select particle j add up to N w_j. *)
Theorem C68_stratified_unbiased : forall (w : list R), weights_ok w ->
  let N := length w in
  exists J : nat -> R -> nat,
    (forall us, length us = N -> (forall x, In x us -> 0 <= x < 1) ->
       stratified_resample (o := RS) w us = Ok (map (fun i => J i (nth i us 0)) (seq 0 N))) /\
    forall j, (j < N)%nat -> exists v : nat -> R,
      (forall i, (i < N)%nat -> is_RInt (fun x => if Nat.eq_dec (J i x) j then 1 else 0) 0 1 (v i)) /\
      nsum v N = INR N * nth j w 0.
Proof.
  intros w ok N.
  (* the draws with every number equal to x *)
  exists (fun i x => match stratified_resample (o := RS) w (repeat x N) with Ok idx => nth i idx 0%nat | Err _ => 0%nat end).
  assert (K : forall i x, (i < N)%nat -> 0 <= x < 1 ->
    inverse_cdf w ((x + INR i) / INR N) (match stratified_resample (o := RS) w (repeat x N) with Ok idx => nth i idx 0%nat | Err _ => 0%nat end)).
  { intros i x hi hx. destruct (@C32_stratified w (repeat x N) ok (repeat_length _ _)) as [idx [E [L [H _]]]].
    - intros y hy. apply repeat_spec in hy. subst y. exact hx.
    - rewrite E. destruct (H i hi) as [G _]. rewrite (nth_indep _ 0 x) in G by (rewrite repeat_length; exact hi). rewrite nth_repeat in G. exact G. }
  split.
  - intros us Lu hu. destruct (@C32_stratified w us ok Lu hu) as [idx [E [L [H _]]]]. rewrite E. f_equal.
    apply (nth_ext _ _ 0%nat 0%nat); [rewrite map_length, seq_length; exact L|].
    intros i hi. rewrite L in hi. destruct (H i hi) as [G _].
    set (f := fun i => match stratified_resample (o := RS) w (repeat (nth i us 0) N) with Ok idx => nth i idx 0%nat | Err _ => 0%nat end).
    change (map _ (seq 0 N)) with (map f (seq 0 N)).
    rewrite (nth_indep (map f (seq 0 N)) 0%nat (f 0%nat)) by (rewrite map_length, seq_length; exact hi). rewrite (map_nth f), seq_nth by exact hi. simpl Nat.add.
    apply (inverse_unique w _ _ _ (proj1 ok) G). apply K; [exact hi|]. apply hu, nth_In. unfold N in hi; lia.
  - intros j hj. assert (hN : (0 < N)%nat) by lia. assert (NR : 0 < INR N) by (apply lt_0_INR; exact hN).
    set (x := INR N * upto w j). set (y := INR N * upto w (S j)).
    assert (Exy : y - x = INR N * nth j w 0) by (unfold x, y; rewrite upto_S by exact hj; ring).
    pose proof (upto_range j ok) as r1. pose proof (upto_range (S j) ok) as r2.
    assert (xy : x <= y) by (pose proof (nth_nonneg (w := w) j (proj1 ok)) as q; pose proof (Rmult_le_pos _ _ (Rlt_le _ _ NR) q); lra).
    assert (x1 : 0 <= x) by (apply Rmult_le_pos; lra).
    assert (y1 : y <= INR N). { unfold y. pose proof (Rmult_le_compat_l _ _ _ (Rlt_le _ _ NR) (proj2 r2)). lra. }
    exists (fun i => cl (y - INR i) - cl (x - INR i)). split; [|rewrite nsum_minus, !cl_sum by lra; rewrite !Rmin_left by lra; exact Exy].
    intros i hi. apply ind_RInt; [lra|..].
    + intros u hu hb. destruct (Nat.eq_dec _ j) as [|ne]; [reflexivity|]. exfalso. apply ne.
      apply (inverse_unique w _ _ _ (proj1 ok) (K i u hi ltac:(lra))).
      apply (copies_interval w N i j u ok eq_refl hN hj). fold x y. lra.
    + intros u hu hb. destruct (Nat.eq_dec _ j) as [e|ne]; [|reflexivity]. exfalso. pose proof (K i u hi ltac:(lra)) as G. pose proof (eq_ind _ (inverse_cdf w ((u + INR i) / INR N)) G _ e) as G'.
      apply (copies_interval w N i j u ok eq_refl hN hj) in G'. fold x y in G'. lra.
Qed.
Print Assumptions C68_stratified_unbiased.

(** ** Multinomial resampling: every draw depends on its own uniform number alone, through one function J, and selects
    particle j with probability w_j. *)
Theorem C68_multinomial_unbiased : forall ss (w : list R), ss_ok ss -> weights_ok w ->
  let N := length w in
  exists J : R -> nat,
    (forall us, length us = N -> (forall x, In x us -> 0 <= x < 1) ->
       multinomial_resample (o := RS) ss w us = Ok (map J us)) /\
    forall j, (j < N)%nat -> is_RInt (fun x => if Nat.eq_dec (J x) j then 1 else 0) 0 1 (nth j w 0).
Proof.
  intros ss w hss ok N.
  assert (hN : (0 < N)%nat) by (unfold N; destruct w; [destruct ok as [_ q]; simpl in q; lra|simpl; lia]).
  exists (fun x => match multinomial_resample (o := RS) ss w (@repeat R x N) with Ok idx => nth 0 idx 0%nat | Err _ => 0%nat end).
  set (J := fun x => match multinomial_resample (o := RS) ss w (@repeat R x N) with Ok idx => nth 0 idx 0%nat | Err _ => 0%nat end).
  (* what an index returned for the draw x satisfies, and that only one does *)
  pose (sel := fun (x : R) (j : nat) => (j < N)%nat /\ (forall k, (k < j)%nat -> upto w (S k) < x) /\ x <= upto w (S j)).
  assert (uniq : forall x j k, sel x j -> sel x k -> j = k).
  { intros x j k (h1 & h2 & h3) (g1 & g2 & g3). destruct (Nat.lt_trichotomy j k) as [c|[c|c]]; [|exact c|].
    - specialize (g2 j c). lra.
    - specialize (h2 k c). lra. }
  assert (K : forall x, 0 <= x < 1 -> sel x (J x)).
  { intros x hx. unfold J. destruct (@C33_multinomial ss w (@repeat R x N) hss ok (repeat_length _ _)) as [idx [E [L H]]].
    - intros y hy. apply repeat_spec in hy. subst y. exact hx.
    - rewrite E. destruct (H 0%nat hN) as (A & B & C & _). rewrite (nth_indep _ 0 x) in B, C by (rewrite repeat_length; exact hN).
      assert (q : nth 0 (repeat x N) x = x) by apply nth_repeat. split; [exact A|]. split; [intros k hk; specialize (B k hk)|]; lra. }
  split.
  - intros us Lu hu. destruct (@C33_multinomial ss w us hss ok Lu hu) as [idx [E [L H]]]. rewrite E. f_equal.
    apply (nth_ext _ _ 0%nat 0%nat); [rewrite map_length; lia|].
    intros i hi. rewrite L in hi. rewrite (nth_indep (map J us) 0%nat (J 0)) by (rewrite map_length; unfold N in *; lia). rewrite map_nth.
    apply (uniq (nth i us 0)); [destruct (H i hi) as (A & B & C & _); repeat split; assumption|]. apply K. apply hu, nth_In. unfold N in *; lia.
  - intros j hj. pose proof (upto_range j ok) as r1. pose proof (upto_range (S j) ok) as r2.
    pose proof (nth_nonneg (w := w) j (proj1 ok)) as q. pose proof (upto_S (w := w) hj) as e.
    replace (nth j w 0) with (cl (upto w (S j)) - cl (upto w j)).
    + change (is_RInt (fun x => if Nat.eq_dec (J x) j then 1 else 0) 0 1 (cl (upto w (S j)) - cl (upto w j))).
      clearbody J. apply ind_RInt; [lra|..].
      * intros u hu hb. destruct (Nat.eq_dec (J u) j) as [|ne]; [reflexivity|]. exfalso. apply ne. apply (uniq u); [apply K; lra|].
        split; [exact hj|]. split; [|lra]. intros k hk. pose proof (upto_mono (w := w) (j := S k) (k := j) (proj1 ok) ltac:(lia)). lra.
      * intros u hu hb. destruct (Nat.eq_dec (J u) j) as [e'|ne]; [|reflexivity]. exfalso. destruct (K u ltac:(lra)) as (A & B & C). rewrite e' in B, C.
        destruct hb as [hb|hb]; [|lra]. destruct j as [|j]; [unfold upto in hb; simpl in hb; lra|]. specialize (B j ltac:(lia)). lra.
    + unfold cl. rewrite !Rmin_right by lra. rewrite !Rmax_right by lra. lra.
Qed.
Print Assumptions C68_multinomial_unbiased.

(** Weights that meet the hypotheses. *)
Example C68_applies : weights_ok [1/2; 1/4; 1/4] /\ ss_ok (searchsorted (o := RS)).
Proof. split; [split; [intros x [<-|[<-|[<-|[]]]]; lra|simpl; lra]|exact C33_searchsorted]. Qed.
