(** * C73: resampling and normalized probabilities in binary64 arithmetic. *)
From Coq Require Import List Arith Lia Bool ZArith Reals Lra Floats Uint63.
From Verif Require Import Ops ListOps Model_DB Model_Resample Model_KF Model_MM Proof_Float Proof_Float2 Prop_Resample.
Import ListNotations.
Local Notation float := Coq.Floats.PrimFloat.float.
Open Scope nat_scope.

Section Float.
Variables fexp flog : float -> float.
Let S := floatS fexp flog.
Let o := floatO fexp flog.

(** ** Resampling *)
(** What np.cumsum leaves at index j, and a number of [range(N)] as a float. *)
Definition running (w : list float) (j : nat) : float := fold_left PrimFloat.add (firstn j (tl w)) (hd 0%float w).
Definition fnum (k : nat) : float := PrimFloat.of_uint63 (Uint63.of_Z (Z.of_nat k)).
Definition weight (x : float) : Prop := (0 <=? x)%float = true.
Definition draw (u : float) : Prop := (0 <=? u)%float = true /\ (u <? 1)%float = true.

Lemma cumsum_running w : forall j, j < length w -> nth j (cumsum (o := S) w) 0%float = running w j.
Proof.
  destruct w as [|a w]; intros j H; [inversion H|]. unfold running. cbn [tl hd cumsum].
  destruct j as [|j]; [reflexivity|]. cbn [nth length] in *. apply Nat.succ_lt_mono in H.
  revert a j H; induction w as [|b w IH]; intros a j H; [inversion H|].
  destruct j as [|j]; [reflexivity|]. cbn [length] in H. apply Nat.succ_lt_mono in H. exact (IH _ _ H).
Qed.
Lemma running_S w j : Datatypes.S j < length w -> running w (Datatypes.S j) = (running w j + nth (Datatypes.S j) w 0)%float.
Proof.
  destruct w as [|a w]; intros H; [inversion H|]. cbn [length] in H. apply Nat.succ_lt_mono in H. unfold running. cbn [tl hd nth].
  revert a j H; induction w as [|b w IH]; intros a j H; [inversion H|].
  destruct j as [|j]; [destruct w; reflexivity|]. cbn [length] in H. apply Nat.succ_lt_mono in H. exact (IH _ _ H).
Qed.
Lemma running_nneg w : Forall weight w -> forall j, j < length w -> nneg (running w j).
Proof.
  intros Hw. assert (Hn : forall j, j < length w -> nneg (nth j w 0%float)).
  { intros j H. apply nneg_leb. rewrite Forall_forall in Hw. apply Hw, nth_In, H. }
  induction j as [|j IH]; intros H.
  - pose proof (Hn 0 H). destruct w; [inversion H|exact H0].
  - rewrite running_S by exact H. apply nneg_add; [apply IH; lia|apply Hn, H].
Qed.

Lemma nth_map {A B} (f : A -> B) l i d d' {x} : i < length l -> nth i l d = x -> nth i (map f l) d' = f x.
Proof. intros H <-. rewrite (nth_indep _ d' (f d)) by (rewrite map_length; exact H). apply map_nth. Qed.

(** Positions in order. *)
Definition pos (us : nat -> float) (N i : nat) : float := ((us i + fnum i) / fnum N)%float.
Lemma draw_nneg u : draw u -> nneg u /\ (ev u < 1)%R.
Proof.
  intros [A B]. apply nneg_leb in A. split; auto. apply ltb_ev in B; [|apply A|reflexivity]. rewrite ev_one in B. exact B.
Qed.
Lemma fnum_ok k : (Z.of_nat k <= 2 ^ 53)%Z -> nneg (fnum k) /\ ev (fnum k) = INR k.
Proof. intros H. destruct (fnat_ev k H) as [A B]. split; [split; [exact A|]|exact B]. change (fnum k) with (fnat k). rewrite B. apply pos_INR. Qed.
Lemma num_up u i : (Z.of_nat (Datatypes.S i) <= 2 ^ 53)%Z -> draw u ->
  nneg (u + fnum i)%float /\ (INR i <= ev (u + fnum i)%float <= INR (Datatypes.S i))%R.
Proof.
  intros Hi Hu. destruct (draw_nneg u Hu) as [U V]. destruct (fnum_ok i ltac:(lia)) as [A B].
  destruct (nneg_add u (fnum i) U A) as (C & D & E). split; [exact C|]. split; [rewrite <- B; exact E|].
  rewrite (proj2 (fadd_ev u (fnum i) (proj1 U) (proj1 A) (nneg_nn _ U) (nneg_nn _ A))).
  eapply Rle_trans; [apply Rmin_l|]. rewrite B.
  destruct (fnum_ok _ Hi) as [A' B']. rewrite <- B'. rewrite <- (proj2 (ev_id _ (proj1 A'))). apply rnd_le.
  rewrite B', S_INR. lra.
Qed.
Lemma small k : (Z.of_nat k <= 2 ^ 53)%Z -> (INR k < Raux.bpow Zaux.radix2 emax)%R.
Proof.
  intros H. destruct (fnum_ok k H) as [A B]. rewrite INR_IZR_INZ. apply Rle_lt_trans with (Raux.bpow Zaux.radix2 53).
  - rewrite <- Raux.IZR_Zpower by lia. apply IZR_le. exact H.
  - apply Raux.bpow_lt. reflexivity.
Qed.
Lemma pos_ok us N i : (Z.of_nat N <= 2 ^ 53)%Z -> i < N -> draw (us i) ->
  nneg (pos us N i) /\ ev (pos us N i) = rnd (ev (us i + fnum i)%float / INR N)%R.
Proof.
  intros HN Hi Hu. destruct (num_up (us i) i ltac:(lia) Hu) as [A B]. destruct (fnum_ok N HN) as [C D].
  assert (1 <= INR N)%R by (change 1%R with (INR 1); apply le_INR; lia).
  pose proof (small (Datatypes.S i) ltac:(lia)). pose proof (small N HN). pose proof (pos_INR i).
  destruct (fdiv_ev (us i + fnum i)%float (fnum N) (proj1 A) (proj1 C)) as [E F]; [lra|lra|].
  rewrite D in F. split; [|exact F]. split; [exact E|]. unfold pos. rewrite F, <- rnd_0. apply rnd_le.
  apply Rmult_le_pos; [lra|]. left. apply Rinv_0_lt_compat. lra.
Qed.
Lemma pos_mono us N i i' : (Z.of_nat N <= 2 ^ 53)%Z -> i' <= i -> i < N -> (forall k, k < N -> draw (us k)) ->
  (ev (pos us N i') <= ev (pos us N i))%R.
Proof.
  intros HN Hle Hi Hu. destruct (Nat.eq_dec i' i) as [->|NE]; [apply Rle_refl|].
  rewrite (proj2 (pos_ok us N i HN Hi (Hu i Hi))), (proj2 (pos_ok us N i' HN ltac:(lia) (Hu i' ltac:(lia)))).
  apply rnd_le. apply Rmult_le_compat_r; [left; apply Rinv_0_lt_compat, lt_0_INR; lia|].
  destruct (num_up (us i) i ltac:(lia) (Hu i Hi)) as [_ B]. destruct (num_up (us i') i' ltac:(lia) (Hu i' ltac:(lia))) as [_ B'].
  assert (INR (Datatypes.S i') <= INR i)%R by (apply le_INR; lia). lra.
Qed.

(** What both functions do in binary64: position i gets the first index whose cumulative weight is above it. *)
Definition first_above (w : list float) (us : nat -> float) (idx : list nat) : Prop :=
  let N := length w in
  length idx = N /\ forall i, i < N -> let j := nth i idx 0 in
    j < N /\ (pos us N i <? running w j)%float = true /\ forall k, k < j -> (running w k <=? pos us N i)%float = true.

Lemma walk_first w us : (Z.of_nat (length w) <= 2 ^ 53)%Z -> Forall weight w -> (forall k, k < length w -> draw (us k)) ->
  forall ps idx, length ps = length w -> (forall i, i < length w -> nth i ps 0%float = pos us (length w) i) ->
  walk (o := S) ps (cumsum (o := S) w) 0 = Ok idx -> first_above w us idx.
Proof.
  intros HN Hw Hu ps idx Lp Hp E. destruct (walk_ok E) as [L W]. split; [etransitivity; [exact L|exact Lp]|]. intros i Hi j.
  assert (Hi' : i < @length (sc S) ps) by (eapply Nat.lt_le_trans; [exact Hi|]; rewrite <- Lp; apply Nat.le_refl).
  destruct (W i Hi') as (A & B & C & _). fold j in A, B, C.
  assert (Lc : @length (sc S) (cumsum (o := S) w) = length w) by (apply (cumsum_length (o := S))).
  cbn [plus] in A. rewrite Lc in A. change (@length (sc S) w) with (@length float w) in A. split; [apply A|].
  rewrite Nat.sub_0_r in B. change (s0 S) with 0%float in *. rewrite Hp, cumsum_running in B by (auto; apply A).
  split; [exact B|]. intros k Hk. destruct (C k ltac:(lia)) as (i' & I1 & I2). rewrite Nat.sub_0_r in I2.
  clearbody j. clear W.
  rewrite Hp in I2 by (eapply Nat.le_lt_trans; [exact I1|exact Hi]). rewrite cumsum_running in I2 by (eapply Nat.lt_trans; [exact Hk|apply A]).
  assert (Rk : nneg (running w k)) by (apply running_nneg; auto; lia).
  destruct (pos_ok us _ i' HN ltac:(lia) (Hu i' ltac:(lia))) as [P' _]. destruct (pos_ok us _ i HN Hi (Hu i Hi)) as [P _].
  apply leb_ev; [apply Rk|apply P|]. apply (ltb_ev_false _ _ (proj1 P') (proj1 Rk)) in I2.
  eapply Rle_trans; [exact I2|]. apply pos_mono; auto.
Qed.

Theorem C73_systematic : forall (w : list float) (u : float) (idx : list nat),
  (Z.of_nat (length w) <= 2 ^ 53)%Z -> Forall weight w -> draw u ->
  systematic_resample (o := S) w u = Ok idx -> first_above w (fun _ => u) idx.
Proof.
  intros w u idx HN Hw Hu E. apply (walk_first w (fun _ => u) HN Hw (fun _ _ => Hu) (syst_positions (o := S) u (length w)) idx); auto.
  - apply (syst_length (o := S)).
  - intros i Hi. exact (nth_map (fun i => (u + fnum i) / fnum (length w))%float (seq 0 (length w)) i 0 0%float ltac:(rewrite seq_length; exact Hi)
      (seq_nth (len := length w) 0 0 Hi)).
Qed.
Theorem C73_stratified : forall (w us : list float) (idx : list nat),
  (Z.of_nat (length w) <= 2 ^ 53)%Z -> Forall weight w -> length us = length w -> Forall draw us ->
  stratified_resample (o := S) w us = Ok idx -> first_above w (fun i => nth i us 0%float) idx.
Proof.
  intros w us idx HN Hw Lu Hu E.
  apply (walk_first w (fun i => nth i us 0%float) HN Hw) with (ps := strat_positions (o := S) us (length w)); auto.
  - intros k Hk. rewrite Forall_forall in Hu. apply Hu, nth_In. lia.
  - apply (strat_length (o := S)), Lu.
  - intros i Hi.
    apply (nth_map (fun p : float * nat => (fst p + fnum (snd p)) / fnum (length w))%float (combine us (seq 0 (length w))) i (0%float, 0) 0%float (x := (nth i us 0%float, i))).
    + rewrite combine_length, seq_length, Lu, Nat.min_id. exact Hi.
    + rewrite combine_nth by (rewrite seq_length; exact Lu). rewrite seq_nth by exact Hi. reflexivity.
Qed.

(** So, in spite of rounding, a particle of weight zero is never chosen. *)
Theorem C73_zero_weight : forall (w : list float) (us : nat -> float) (idx : list nat),
  (Z.of_nat (length w) <= 2 ^ 53)%Z -> Forall weight w -> (forall k, k < length w -> draw (us k)) ->
  first_above w us idx -> forall j, In j idx -> j < length w /\ (0 <? nth j w 0)%float = true.
Proof.
  intros w us idx HN Hw Hu [L Fa] j Hj. apply (In_nth _ _ 0) in Hj as (i & Hi & <-). rewrite L in Hi.
  destruct (Fa i Hi) as (A & B & C). set (j := nth i idx 0) in *. split; [exact A|].
  destruct (pos_ok us _ i HN Hi (Hu i Hi)) as [P _].
  assert (Wj : nneg (nth j w 0%float)) by (apply nneg_leb; rewrite Forall_forall in Hw; apply Hw, nth_In, A).
  apply (ltb_ev 0%float _ (eq_refl : num 0%float) (proj1 Wj)). rewrite ev_zero.
  destruct (Rlt_dec 0 (ev (nth j w 0%float))) as [Y|Nj]; [exact Y|exfalso].
  assert (Z : ev (nth j w 0%float) = 0%R) by (destruct Wj; lra).
  assert (Rj : nneg (running w j)) by (apply running_nneg; auto).
  apply (ltb_ev _ _ (proj1 P) (proj1 Rj)) in B.
  destruct j as [|j].
  - assert (G : running w 0 = nth 0 w 0%float) by (destruct w; reflexivity). rewrite G, Z in B. destruct P; lra.
  - assert (Rj' : nneg (running w j)) by (apply running_nneg; auto; lia).
    specialize (C j ltac:(lia)). apply (leb_ev _ _ (proj1 Rj') (proj1 P)) in C.
    rewrite running_S in B by exact A.
    rewrite (proj2 (fadd_ev _ _ (proj1 Rj') (proj1 Wj) (nneg_nn _ Rj') (nneg_nn _ Wj))), Z, Rplus_0_r in B.
    destruct (ev_id _ (proj1 Rj')) as [Bd Id]. rewrite Id, Rmin_left in B by exact Bd. lra.
Qed.

(** ** Probabilities *)
(** NaN, or a number from 0 to 1. *)
Definition unit (x : float) : Prop := is_nan x = true \/ ((0 <=? x)%float = true /\ (x <=? 1)%float = true).
Definition nonneg (x : float) : Prop := is_nan x = true \/ (0 <=? x)%float = true.

Lemma unit_nonneg x : unit x -> nonneg x.
Proof. intros [H|[H _]]; [left|right]; exact H. Qed.
Lemma part_unit x s : nonneg x -> (num s -> num x -> ev x <= ev s)%R -> unit (x / s)%float.
Proof.
  intros Hx Hs. destruct (num_dec (x / s)%float) as [N|N]; [right|left; exact N].
  destruct (div_num _ _ N) as [Nx Ns]. destruct Hx as [Hx|Hx]; [unfold num in Nx; congruence|]. apply nneg_leb in Hx.
  destruct (fdiv_part x s Nx Ns (nneg_nn _ Hx) (Hs Ns Nx) N) as [A B]. split.
  - apply nneg_leb. split; auto.
  - apply leb_ev; auto; [reflexivity|]. rewrite ev_one. exact B.
Qed.
Lemma nonneg_mul x y : nonneg x -> nonneg y -> nonneg (x * y)%float.
Proof. intros A B. apply nn_iff, fmul_nn; apply nn_iff; assumption. Qed.
Lemma nonneg_add x y : nonneg x -> nonneg y -> nonneg (x + y)%float.
Proof. intros A B. apply nn_iff, fadd_nn; apply nn_iff; assumption. Qed.
Lemma nonneg_0 : nonneg 0%float.
Proof. right. reflexivity. Qed.
Lemma nonneg_fold {A} (f : A -> float) l : forall a, nonneg a -> (forall x, In x l -> nonneg (f x)) -> nonneg (fold_left (fun a x => (a + f x)%float) l a).
Proof.
  induction l as [|b l IH]; intros a Ha Hl; [exact Ha|]. cbn [fold_left]. apply IH; [apply nonneg_add; [exact Ha|apply Hl; left; reflexivity]|].
  intros x Hx. apply Hl. right. exact Hx.
Qed.

(** The entries over their sum. *)
Lemma sum_parts (v : list float) : Forall nonneg v -> forall x, In x v -> unit (x / fold_left PrimFloat.add v 0)%float.
Proof.
  intros Hv x Hx. apply part_unit; [rewrite Forall_forall in Hv; apply Hv, Hx|]. intros Ns Nx.
  destruct (fsum_num v 0%float Ns) as [_ Nv]. rewrite Forall_forall in Hv, Nv.
  apply (fsum_ge v 0%float); [apply nneg_leb; reflexivity| |exact Hx]. apply Forall_forall. intros y Hy.
  destruct (Hv y Hy) as [H|H]; [specialize (Nv y Hy); unfold num in Nv; congruence|]. apply nneg_leb, H.
Qed.
(** normalize: every entry is NaN or from 0 to 1, ... *)
Theorem C73_normalize : forall pdf : list float, Forall nonneg pdf -> Forall unit (db_normalize (o := S) pdf).
Proof.
  intros v Hv. apply Forall_forall. intros y Hy. apply in_map_iff in Hy as (x & <- & Hx). apply (sum_parts v Hv x Hx).
Qed.
(** ... and a number if the sum is positive and has not overflowed. *)
Theorem C73_normalize_numbers : forall pdf : list float, Forall weight pdf ->
  let s := fold_left PrimFloat.add pdf 0%float in (0 <? s)%float = true -> (s <? infinity)%float = true ->
  Forall (fun y => (0 <=? y)%float = true /\ (y <=? 1)%float = true) (db_normalize (o := S) pdf).
Proof.
  intros v Hv s P F. apply Forall_forall. intros y Hy. pose proof Hy as Hy'. apply in_map_iff in Hy' as (x & E & Hx).
  assert (U : unit y).
  { assert (G : Forall nonneg v) by (eapply Forall_impl; [|exact Hv]; intros a Ha; right; exact Ha).
    pose proof (C73_normalize v G) as H. rewrite Forall_forall in H. apply H, Hy. }
  destruct U as [U|U]; [exfalso|exact U]. subst y.
  assert (Hn : Forall nneg v) by (eapply Forall_impl; [|exact Hv]; intros a Ha; apply nneg_leb, Ha).
  assert (Z0 : nneg 0%float) by (apply nneg_leb; reflexivity).
  destruct (fsum_ge v 0%float Z0 Hn) as (Ns & _ & Le).
  change (is_nan (x / s)%float = true) in U.
  rewrite Forall_forall in Hn. pose proof (Hn x Hx) as Hxn.
  apply (ltb_ev 0%float s (eq_refl : num 0%float) (proj1 Ns)) in P. rewrite ev_zero in P.
  apply (ltb_ev s infinity (proj1 Ns) (eq_refl : num infinity)) in F. rewrite ev_inf in F.
  assert (N : num (x / s)%float).
  { apply fdiv_part_num; [apply Hxn|apply Ns|split; [apply Hxn|apply Le, Hx]|split; assumption]. }
  unfold num in N. congruence.
Qed.

(** update, and whole runs of predict and update: if the belief, the kernel and the likelihoods are not negative, every
    belief after an update is NaN or from 0 to 1. *)
Lemma bmul_nonneg a b r : Forall nonneg a -> Forall nonneg b -> bmul (o := S) a b = Ok r -> Forall nonneg r.
Proof.
  intros Ha Hb. rewrite Forall_forall in Ha, Hb. unfold bmul.
  assert (G : forall f : float -> float, forall l, (forall x, In x l -> nonneg (f x)) -> Forall nonneg (map f l)).
  { intros f l H. apply Forall_forall. intros y Hy. apply in_map_iff in Hy as (x & <- & Hx). auto. }
  destruct (_ =? _).
  - intros [= <-]. apply Forall_forall. intros y Hy. apply in_map_iff in Hy as ((x & x') & <- & Hx).
    apply nonneg_mul; [apply Ha; eapply in_combine_l, Hx|apply Hb; eapply in_combine_r, Hx].
  - destruct a as [|x [|x' a]].
    + destruct b as [|y [|]]; try discriminate; intros [= <-]; constructor.
    + intros [= <-]. apply (G (fun y => (x * y)%float) b). intros y Hy. apply nonneg_mul; [apply Ha; left; reflexivity|apply Hb, Hy].
    + destruct b as [|y [|]]; try discriminate; intros [= <-]; apply (G (fun t => (t * y)%float) (x :: x' :: a));
        intros t Ht; (apply nonneg_mul; [apply Ha, Ht|apply Hb; left; reflexivity]).
Qed.
Theorem C73_update : forall likelihood prior posterior : list float, Forall nonneg likelihood -> Forall nonneg prior ->
  db_update (o := S) likelihood prior = Ok posterior -> Forall unit posterior.
Proof.
  intros l p q Hl Hp. unfold db_update. destruct (bmul (o := S) p l) as [r|e] eqn:E; [|discriminate]. intros [= <-].
  apply C73_normalize, (bmul_nonneg p l); assumption.
Qed.
Lemma zget_nonneg v z : Forall nonneg v -> nonneg (zget (o := S) v z).
Proof.
  intros Hv. unfold zget. destruct (le_lt_dec (length v) (Z.to_nat z)) as [H|H].
  - rewrite nth_overflow by exact H. apply nonneg_0.
  - rewrite Forall_forall in Hv. apply Hv. apply nth_In. exact H.
Qed.
Lemma predict_nonneg v k off wrap c : Forall nonneg v -> Forall nonneg k -> nonneg c -> Forall nonneg (db_predict (o := S) v off k wrap c).
Proof.
  intros Hv Hk Hc.
  assert (C : forall get n, (forall z, nonneg (get z)) -> Forall nonneg (conv (o := S) get n k)).
  { intros get n G. apply Forall_forall. intros y Hy. apply in_map_iff in Hy as (i & <- & _).
    apply (nonneg_fold (fun j => (nth j k 0 * get (Z.of_nat i + Z.of_nat (length k / 2) - Z.of_nat j)%Z)%float)); [apply nonneg_0|].
    intros j Hj. apply in_seq in Hj. apply nonneg_mul; [|apply G]. rewrite Forall_forall in Hk. apply Hk, nth_In, Hj. }
  assert (Rl : Forall nonneg (roll (o := S) v off)).
  { apply Forall_forall. intros y Hy. apply in_map_iff in Hy as (i & <- & _). apply zget_nonneg, Hv. }
  assert (Sh : Forall nonneg (shift (o := S) v off c)).
  { apply Forall_forall. intros y Hy. apply in_map_iff in Hy as (i & <- & _). cbv zeta. destruct (inside _ _); [apply zget_nonneg, Hv|exact Hc]. }
  unfold db_predict. destruct wrap; apply C; intros z; [apply zget_nonneg, Rl|]. destruct (inside _ _); [apply zget_nonneg, Sh|exact Hc].
Qed.
Theorem C73_belief : forall (kernel belief : list float) (moves : list (Z * list float)) (r : list float),
  Forall nonneg kernel -> Forall nonneg belief -> Forall (fun m => Forall nonneg (snd m)) moves -> moves <> [] ->
  db_run (o := S) kernel moves belief = Ok r -> Forall unit r.
Proof.
  intros k b ms r Hk Hb Hm NE. assert (G : forall ms b, Forall (fun m => Forall nonneg (snd m)) ms -> (ms <> [] \/ Forall unit b) -> Forall nonneg b ->
    db_run (o := S) k ms b = Ok r -> Forall unit r); [|apply (G ms b); auto].
  clear b ms Hb Hm NE. induction ms as [|[off l] ms IH]; intros b Hm HU Hb; cbn [db_run].
  - intros [= <-]. destruct HU as [H|H]; [contradiction|exact H].
  - inversion Hm as [|x y Hl Hm']; subst. cbn [snd] in Hl.
    destruct (db_update (o := S) l (db_predict (o := S) b off k true (s0 S))) as [q|e] eqn:E; [|discriminate]. cbn [rbind].
    assert (U : Forall unit q).
    { apply (C73_update l _ q Hl (predict_nonneg b k off true 0%float Hb Hk nonneg_0) E). }
    apply IH; auto. eapply Forall_impl; [|exact U]. apply unit_nonneg.
Qed.

(** ** Banks of filters *)
Lemma get_fun a b f i j : i < a -> j < b -> @mget o a b (@mfun o a b f) i j = f i j.
Proof.
  intros Hi Hj. change (nth j (nth i (map (fun i => map (fun j => f i j) (seq 0 b)) (seq 0 a)) []) 0%float = f i j).
  rewrite (nth_map (fun i => map (fun j => f i j) (seq 0 b)) (seq 0 a) i 0 [] (x := i)) by (rewrite ?seq_length, ?seq_nth; auto).
  apply (nth_map (fun j => f i j) (seq 0 b) j 0 0%float (x := j)); rewrite ?seq_length, ?seq_nth; auto.
Qed.
Section Bank.
Variables n m l : nat.
Variable T : Type.
Variable D : filt o n m l T.
Variable N : nat.
(** The likelihood read after an update that returned is not negative. *)
Hypothesis lik_ok : forall z R H f f', f_update D z R H f = (f', None) -> nonneg (fst (f_lik D f')).

Definition row_of (P : float -> Prop) (v : M o 1 N) : Prop := forall j, j < N -> P (mget v 0 j).

Lemma norm_row (v : M o 1 N) : row_of nonneg v -> row_of unit (mdivs v (vsum v)).
Proof.
  intros Hv j Hj.
  assert (E : vsum v = fold_left PrimFloat.add (map (fun i => mget v 0 i : float) (seq 0 N)) 0%float).
  { unfold vsum. generalize (seq 0 N) as q. intros q. change (s0 o) with 0%float. generalize 0%float as a.
    induction q as [|b q IH]; intros a; [reflexivity|]. apply IH. }
  assert (G : mget (mdivs v (vsum v)) 0 j = (mget v 0 j / vsum v)%float).
  { apply (get_fun 1 N (fun i j => (mget v i j / vsum v)%float) 0 j); auto. }
  rewrite G, E. apply sum_parts.
  - apply Forall_forall. intros y Hy. apply in_map_iff in Hy as (i & <- & Hi). apply in_seq in Hi. apply Hv. lia.
  - apply in_map_iff. exists j. split; [reflexivity|]. apply in_seq. lia.
Qed.

(** IMMEstimator: with a transition matrix and initial probabilities that are not negative, every mode probability is,
    after every history of calls, NaN or from 0 to 1. *)
Section IMM.
Variable Mt : M o N N.
Hypothesis Mt_ok : forall i j, i < N -> j < N -> nonneg (mget Mt i j).
Definition imm_good (s : imm o n T N) : Prop :=
  row_of unit (i_mu s) /\ row_of nonneg (i_cbar s) /\ Forall nonneg (i_lik s).

Lemma cbar_ok (mu : M o 1 N) : row_of nonneg mu -> row_of nonneg (imm_cbar Mt mu).
Proof.
  intros Hm j Hj. unfold imm_cbar.
  assert (G : mget (mdot mu Mt) 0 j = l_sum S (map (fun i => (mget mu 0 i * mget Mt i j)%float) (seq 0 N))).
  { apply (get_fun 1 N (fun i k => l_sum S (map (fun j => (mget mu i j * mget Mt j k)%float) (seq 0 N))) 0 j); auto. }
  rewrite G. unfold l_sum.
  assert (F : Forall nonneg (map (fun i => (mget mu 0 i * mget Mt i j)%float) (seq 0 N))).
  { apply Forall_forall. intros y Hy. apply in_map_iff in Hy as (i & <- & Hi). apply in_seq in Hi. apply nonneg_mul; [apply Hm|apply Mt_ok]; lia. }
  destruct (map _ _) as [|a r]; [apply nonneg_0|]. inversion F as [|a' r' Ha Hr]; subst.
  apply (nonneg_fold (fun x : float => x)); [exact Ha|]. intros x Hx. rewrite Forall_forall in Hr. apply Hr, Hx.
Qed.
Lemma set_nth_ok (L : list float) i v : Forall nonneg L -> nonneg v -> Forall nonneg (set_nth L i v).
Proof. intros H Hv. revert i; induction H as [|a L Ha HL IH]; intros [|i]; cbn [set_nth]; try (constructor; auto; fail); auto. Qed.
Lemma update_all_ok z : forall fs i lik fs' lik' e, Forall nonneg lik -> imm_update_all D z i fs lik = (fs', lik', e) -> Forall nonneg lik'.
Proof.
  induction fs as [|f fs IH]; intros i lik fs' lik' e HL; cbn [imm_update_all].
  - intros E. injection E as <- <- <-. exact HL.
  - destruct (f_update D z None None f) as [f1 [e1|]] eqn:U; [intros E; injection E as <- <- <-; exact HL|].
    pose proof (lik_ok _ _ _ _ _ U) as HK. destruct (f_lik D f1) as [L f2]. cbn [fst] in HK.
    destruct (imm_update_all D z _ fs _) as [[fs2 lik2] e2] eqn:E2. intros E. injection E as <- <- <-.
    apply (IH _ _ _ _ _ (set_nth_ok lik i L HL HK) E2).
Qed.
Lemma imm_init_good fs mu : row_of nonneg mu -> imm_good (imm_init D Mt fs mu).
Proof.
  intros Hm. pose proof (norm_row mu Hm) as U. repeat split; [exact U| |].
  - apply cbar_ok. intros j Hj. apply unit_nonneg, U, Hj.
  - apply Forall_forall. intros x Hx. apply repeat_spec in Hx. subst x. apply nonneg_0.
Qed.
Lemma imm_step_good c s : imm_good s -> imm_good (fst (imm_step D Mt c s)).
Proof.
  intros (A & B & C). destruct c as [u|z]; cbn [imm_step].
  - unfold imm_predict. destruct (imm_predict_all _ _ _ _) as [fs [e|]]; repeat split; assumption.
  - unfold imm_update. destruct (imm_update_all D z 0 (i_filters s) (i_lik s)) as [[fs lik] e] eqn:E.
    pose proof (update_all_ok z _ _ _ _ _ _ C E) as HL. destruct e as [e|]; [repeat split; assumption|]. cbv zeta.
    assert (U : row_of unit (let mu := mfun 1 N (fun _ j => smul o (mget (i_cbar s) 0 j) (nth j lik (s0 o))) in mdivs mu (vsum mu))).
    { apply norm_row. intros j Hj.
      eapply eq_ind_r; [|apply (get_fun 1 N (fun _ j => smul o (mget (i_cbar s) 0 j) (nth j lik (s0 o))) 0 j); auto].
      apply nonneg_mul; [apply B, Hj|].
      destruct (le_lt_dec (@length float lik) j) as [H|H]; [rewrite nth_overflow by exact H; apply nonneg_0|].
      rewrite Forall_forall in HL. apply HL, nth_In, H. }
    repeat split; [exact U| |exact HL]. apply cbar_ok. intros j Hj. apply unit_nonneg, U, Hj.
Qed.
Theorem C73_imm : forall (fs : list T) (mu : M o 1 N) (cs : list (imm_call o m l)), row_of nonneg mu ->
  row_of unit (i_mu (imm_run D Mt cs (imm_init D Mt fs mu))).
Proof.
  intros fs mu cs Hm. cut (imm_good (imm_run D Mt cs (imm_init D Mt fs mu))); [intros X; apply X|].
  pose proof (imm_init_good fs mu Hm) as G. revert G. generalize (imm_init D Mt fs mu). induction cs as [|c cs IH]; intros s G; [exact G|].
  apply (IH (fst (imm_step D Mt c s))), imm_step_good, G.
Qed.
End IMM.

(** MMAEFilterBank: the same from the first update on. *)
Lemma mmae_all_ok z R H : forall fs i (p : M o 1 N) fs' p' e, row_of nonneg p -> mmae_update_all D z R H i fs p = (fs', p', e) -> row_of nonneg p'.
Proof.
  induction fs as [|f fs IH]; intros i p fs' p' e HP; cbn [mmae_update_all].
  - intros E. injection E as <- <- <-. exact HP.
  - destruct (f_update D z R H f) as [f1 [e1|]] eqn:U; [intros E; injection E as <- <- <-; exact HP|].
    pose proof (lik_ok _ _ _ _ _ U) as HK. destruct (f_lik D f1) as [L f2]. cbn [fst] in HK. cbv zeta.
    destruct (mmae_update_all D z R H _ fs _) as [[fs2 p2] e2] eqn:E2. intros E. injection E as <- <- <-.
    refine (IH _ _ _ _ _ _ E2). intros j Hj.
    eapply eq_ind_r; [|apply (get_fun 1 N (fun _ j => if j =? i then smul o (mget p 0 j) L else mget p 0 j) 0 j); auto].
    cbv beta. destruct (j =? i); [apply nonneg_mul; auto|]; apply HP, Hj.
Qed.
Theorem C73_mmae : forall (cs : list (mmae_call o n m l)) (s s' : mmae o n m T N), row_of nonneg (a_p s) ->
  (exists z R H, In (@AUpdate o n m l z R H) cs) -> mmae_run D cs s = Some s' -> row_of unit (a_p s').
Proof.
  intros cs s s' HP HU.
  assert (G : forall cs s, row_of nonneg (a_p s) -> (row_of unit (a_p s) \/ exists z R H, In (@AUpdate o n m l z R H) cs) ->
    mmae_run D cs s = Some s' -> row_of unit (a_p s')); [|apply (G cs s); auto].
  clear cs s HP HU. induction cs as [|c cs IH]; intros s HP HU; cbn [mmae_run].
  - intros [= <-]. destruct HU as [HU|(z & R & H & [])]. exact HU.
  - destruct c as [u|z R H]; cbn [mmae_step].
    + unfold mmae_predict. destruct (mmae_predict_all D u (a_filters s)) as [fs [e|]]; [discriminate|]. apply IH; [exact HP|].
      destruct HU as [HU|(z & R & H & [C|HI])]; [left; exact HU|discriminate|right; exists z, R, H; exact HI].
    + unfold mmae_update. cbv zeta. destruct (mmae_update_all D z R _ 0 (a_filters s) (a_p s)) as [[fs p] [e|]] eqn:E; [discriminate|].
      pose proof (norm_row p (mmae_all_ok _ _ _ _ _ _ _ _ _ HP E)) as U. apply IH; [|left; exact U].
      intros j Hj. apply unit_nonneg, U, Hj.
Qed.
End Bank.

(** A KalmanFilter is such a filter if exp is never negative. *)
Theorem C73_kalman_likelihood : forall (n m l : nat) (lpdf : M o m 1 -> M o m 1 -> M o m m -> float) (fmin : float),
  (forall x, nonneg (fexp x)) -> nonneg fmin ->
  forall z R H f f', f_update (kf_filt n l lpdf fmin) z R H f = (f', None) -> nonneg (fst (f_lik (kf_filt n l lpdf fmin) f')).
Proof.
  intros n m l lpdf fmin He Hf z R H f f' E. cbn [kf_filt f_update f_lik] in *.
  assert (C : kf_lik f' = None).
  { unfold kf_update in E. destruct z as [z|]; [|injection E as <-; reflexivity]. cbv zeta in E.
    destruct (kf_inv _ _); [injection E as <-; reflexivity|discriminate E]. }
  unfold kf_likelihood. rewrite C. destruct (kf_log_likelihood lpdf f') as [ll s]. cbv zeta. cbn [fst].
  destruct (seqb o (sexp o ll) (s0 o)); [exact Hf|apply He].
Qed.
End Float.
Print Assumptions C73_systematic.
Print Assumptions C73_stratified.
Print Assumptions C73_zero_weight.
Print Assumptions C73_normalize.
Print Assumptions C73_normalize_numbers.
Print Assumptions C73_update.
Print Assumptions C73_belief.
Print Assumptions C73_imm.
Print Assumptions C73_mmae.
Print Assumptions C73_kalman_likelihood.

Definition fid (x : float) : float := x.
Local Notation FS := (floatS fid fid).
(** Five weights, two of them zero; the first position, 0.1, is not below the first cumulative weight, 0.1. *)
Definition w5 : list float := [0.1; 0; 0.3; 0; 0.6]%float.
Example C73_resample_applies :
  (Z.of_nat (length w5) <= 2 ^ 53)%Z /\ Forall weight w5 /\ draw 0.5%float /\ systematic_resample (o := FS) w5 0.5%float = Ok [2; 2; 4; 4; 4].
Proof. repeat split; try (vm_compute; reflexivity); [vm_compute; discriminate|repeat constructor]. Qed.
Example C73_stratified_applies :
  let us := [0.25; 0.5; 0; 0.75; 0.5]%float in
  Forall draw us /\ stratified_resample (o := FS) w5 us = Ok [0; 2; 4; 4; 4].
Proof. split; [repeat (apply Forall_cons; [split; reflexivity|]); apply Forall_nil|vm_compute; reflexivity]. Qed.
Example C73_belief_applies :
  let k := [0.25; 0.5; 0.25]%float in let b := [1; 0; 0]%float in let ms := [(1%Z, [0.5; 0.25; 0x1p-1074]%float)] in
  Forall nonneg k /\ Forall nonneg b /\ Forall (fun m => Forall nonneg (snd m)) ms /\
  db_run (o := FS) k ms b = Ok [0.5; 0.5; 0]%float.
Proof. repeat split; try (repeat constructor; right; reflexivity). Qed.
(** A bank of two filters that do not move; their likelihoods are 4 and 1. *)
Definition F2 : filt (floatO fid fid) 1 1 1 float :=
  @mkF (floatO fid fid) 1 1 1 float (fun _ => [[1]]%float) (fun _ => [[1]]%float) (fun _ _ f => f) (fun _ f => (f, None)) (fun _ _ _ f => (f, None))
    (fun f => ((f * f)%float, f)).
Definition tr2 : M (floatO fid fid) 2 2 := [[0.9; 0.1]; [0.1; 0.9]]%float.
Example C73_imm_applies :
  (forall z R H f f', f_update F2 z R H f = (f', None) -> nonneg (fst (f_lik F2 f'))) /\
  (forall i j, i < 2 -> j < 2 -> nonneg (mget tr2 i j)) /\
  i_mu (imm_run F2 tr2 [IUpdate 1 None; IPredict 1 None; IUpdate 1 None] (imm_init F2 tr2 [2; 1]%float ([[2; 2]]%float : M (floatO fid fid) 1 2)))
  = [[0.91925465838509313; 0.080745341614906818]]%float.
Proof.
  split; [|split].
  - intros z R H f f' _. apply nn_iff, fsq_nn.
  - intros [|[|i]] [|[|j]] Hi Hj; try (exfalso; lia); right; reflexivity.
  - vm_compute. reflexivity.
Qed.

(** The NaN is real: a belief with all entries positive and positive likelihoods, whose products underflow. *)
Theorem C73_underflow_refuted :
  let prior := [0.5; 0.5]%float in let lik := [0x1p-1074; 0x1p-1074]%float in
  Forall (fun x => (0 <? x)%float = true) prior /\ Forall (fun x => (0 <? x)%float = true) lik /\
  exists q, db_update (o := FS) lik prior = Ok q /\ Forall (fun x => is_nan x = true) q.
Proof. repeat split; try (repeat constructor; reflexivity). eexists. split; [reflexivity|]. repeat constructor. Qed.
Print Assumptions C73_underflow_refuted.
