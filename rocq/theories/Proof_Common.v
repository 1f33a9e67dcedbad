(** * Entries of the matrices built by filterpy/common, for every arithmetic whose arrays behave
    like arrays ([get_laws]); no arithmetic law is used. *)
From Coq Require Import List Arith Bool Lia.
From Verif Require Import Ops Model_KF Model_Common.
Import ListNotations.
Set Implicit Arguments.
Unset Strict Implicit.

(** Reading what was written. *)
Definition get_laws (o : nops) : Prop :=
  (forall m n (f : nat -> nat -> sc o) i j, i < m -> j < n -> mget (mfun m n f) i j = f i j) /\
  (forall m n i j, mget (@mzeros o m n) i j = s0 o) /\
  (forall n i j, i < n -> j < n -> mget (@meye o n) i j = if i =? j then s1 o else s0 o) /\
  (forall m n (s : sc o) (A : M o m n) i j, i < m -> j < n -> mget (mscale s A) i j = smul o s (mget A i j)).

Section Get.
Variable o : nops.
Hypothesis L : get_laws o.

Lemma get_fun m n (f : nat -> nat -> sc o) i j : i < m -> j < n -> mget (mfun m n f) i j = f i j.
Proof. apply (proj1 L). Qed.

Lemma get_write p q m n (A : M o p q) r c (V : M o m n) i j : i < p -> j < q ->
  mget (mwrite A r c V) i j =
  if (r <=? i) && (i <? r + m) && (c <=? j) && (j <? c + n) then mget V (i - r) (j - c) else mget A i j.
Proof. intros. unfold mwrite. rewrite get_fun by assumption. reflexivity. Qed.

Lemma get_write_in p q m n (A : M o p q) r c (V : M o m n) i j : i < p -> j < q ->
  r <= i < r + m -> c <= j < c + n -> mget (mwrite A r c V) i j = mget V (i - r) (j - c).
Proof.
  intros. rewrite get_write by assumption.
  destruct (Nat.leb_spec r i), (Nat.ltb_spec i (r + m)), (Nat.leb_spec c j), (Nat.ltb_spec j (c + n)); simpl; try lia; reflexivity.
Qed.
Lemma get_write_out p q m n (A : M o p q) r c (V : M o m n) i j : i < p -> j < q ->
  ~ (r <= i < r + m /\ c <= j < c + n) -> mget (mwrite A r c V) i j = mget A i j.
Proof.
  intros. rewrite get_write by assumption.
  destruct (Nat.leb_spec r i), (Nat.ltb_spec i (r + m)), (Nat.leb_spec c j), (Nat.ltb_spec j (c + n)); simpl; try lia; reflexivity.
Qed.

Lemma idx_lt n k r d : r < n -> d < k -> r * k + d < n * k.
Proof. nia. Qed.
Lemma idx_lt' n k r d : r < n -> d < k -> d * n + r < n * k.
Proof. nia. Qed.
Lemma idx_div k r d : d < k -> (r * k + d) / k = r.
Proof. intros. rewrite Nat.div_add_l by lia. rewrite Nat.div_small by lia. lia. Qed.
Lemma idx_mod k r d : d < k -> (r * k + d) mod k = d.
Proof. intros. rewrite Nat.add_comm, Nat.mod_add by lia. apply Nat.mod_small. lia. Qed.
Lemma idx_block k a r d : d < k -> (a * k <= r * k + d < a * k + k <-> a = r).
Proof. intros. split; [|intros ->; lia]. intros. nia. Qed.

Lemma block_diag_get n k (Q : M o n n) d d' r r' : d < k -> d' < k -> r < n -> r' < n ->
  mget (block_diag k Q) (d * n + r) (d' * n + r') = if d =? d' then mget Q r r' else s0 o.
Proof.
  intros. unfold block_diag. rewrite get_fun by (apply idx_lt'; assumption).
  rewrite !idx_div, !idx_mod by assumption. reflexivity.
Qed.

Lemma fill_blocks_get n k (Q : M o n n) D d d' r r' : d < k -> d' < k -> r < n -> r' < n ->
  mget (@fill_blocks o n k Q D) (r * k + d) (r' * k + d') = smul o (mget Q r r') (if d =? d' then s1 o else s0 o).
Proof.
  intros hd hd' hr hr'.
  assert (G : forall N, N <= n * n -> mget
    (fold_left (fun D i => mwrite D (i / n * k) (i mod n * k) (mscale (mget Q (i / n) (i mod n)) (meye k))) (seq 0 N) D)
    (r * k + d) (r' * k + d') =
    if r * n + r' <? N then smul o (mget Q r r') (if d =? d' then s1 o else s0 o) else mget D (r * k + d) (r' * k + d')).
  { induction N as [|N IH]; intros hN; [reflexivity|].
    rewrite seq_S, fold_left_app. simpl.
    assert (e : N = N / n * n + N mod n) by (rewrite (Nat.mul_comm _ n); apply Nat.div_mod; lia).
    assert (hm : N mod n < n) by (apply Nat.mod_upper_bound; lia).
    destruct (Nat.eq_dec N (r * n + r')) as [E|E].
    - assert (e1 : N / n = r) by (rewrite E; apply idx_div; assumption).
      assert (e2 : N mod n = r') by (rewrite E; apply idx_mod; assumption).
      rewrite e1, e2, get_write_in; [|apply idx_lt; assumption|apply idx_lt; assumption|lia|lia].
      destruct L as [_ [_ [Le Ls]]]. rewrite Ls by lia. rewrite Le by lia.
      destruct (Nat.ltb_spec (r * n + r') (S N)); [|lia].
      replace (r * k + d - r * k) with d by lia. replace (r' * k + d' - r' * k) with d' by lia. reflexivity.
    - rewrite get_write_out; [|apply idx_lt; assumption|apply idx_lt; assumption|].
      + rewrite IH by lia.
        destruct (Nat.ltb_spec (r * n + r') (S N)), (Nat.ltb_spec (r * n + r') N); try lia; reflexivity.
      + rewrite !idx_block by assumption. intros [e1 e2]. apply E. rewrite <- e1, <- e2. exact e. }
  unfold fill_blocks. rewrite G by lia.
  destruct (Nat.ltb_spec (r * n + r') (n * n)); [reflexivity|nia].
Qed.

(** The kinematic loops give the Taylor coefficients. *)
Lemma kst_loops_get order (dt : sc o) i j : i <= order -> j <= order ->
  mget (kst_loops order dt) i j =
  if i <=? j then sdiv o (spow o dt (j - i)) (snat o (factorial (j - i))) else s0 o.
Proof.
  intros hi hj. unfold kst_loops.
  set (row := fold_left _ (seq 0 (S order)) _).
  assert (R : forall a b, a <= order -> b <= order -> mget row a b =
     if a =? 0 then sdiv o (spow o dt b) (snat o (factorial b)) else s0 o).
  { intros a b ha hb. unfold row.
    assert (G : forall N, N <= S order -> mget
      (fold_left (fun F n => mwrite F 0 n (mfun 1 1 (fun _ _ => sdiv o (spow o dt n) (snat o (factorial n))))) (seq 0 N) (mzeros (S order) (S order)) : M o (S order) (S order)) a b =
      if (a =? 0) && (b <? N) then sdiv o (spow o dt b) (snat o (factorial b)) else s0 o).
    { induction N as [|N IH]; intros hN.
      - simpl. rewrite (proj1 (proj2 L)). rewrite andb_false_r. reflexivity.
      - rewrite seq_S, fold_left_app. simpl.
        destruct (Nat.eq_dec a 0) as [->|na]; [destruct (Nat.eq_dec b N) as [->|nb]|].
        + rewrite get_write_in by lia. rewrite get_fun by lia. simpl.
          destruct (Nat.ltb_spec N (S N)); [reflexivity|lia].
        + rewrite get_write_out by lia. rewrite IH by lia. simpl.
          destruct (Nat.ltb_spec b (S N)), (Nat.ltb_spec b N); try lia; reflexivity.
        + rewrite get_write_out by lia. rewrite IH by lia.
          destruct (Nat.eqb_spec a 0); [lia|reflexivity]. }
    rewrite G by lia. destruct (Nat.ltb_spec b (S order)); [rewrite andb_true_r; reflexivity|lia]. }
  clearbody row.
  assert (G : forall N, N <= order -> forall a b, a <= order -> b <= order -> mget
      (fold_left (fun F j => mwrite F j j (mslice F 0 0 1 (S order - j))) (seq 1 N) row) a b =
      if (a <=? N) && (a <=? b) then sdiv o (spow o dt (b - a)) (snat o (factorial (b - a))) else s0 o).
  { induction N as [|N IH]; intros hN a b ha hb.
    - simpl fold_left. rewrite R by assumption. destruct a; simpl; [rewrite Nat.sub_0_r|]; reflexivity.
    - rewrite seq_S, fold_left_app. cbn [fold_left]. change (1 + N) with (S N).
      destruct (Nat.eq_dec a (S N)) as [->|na]; [destruct (le_lt_dec (S N) b) as [hb2|hb2]|].
      + rewrite get_write_in by lia. unfold mslice. rewrite get_fun by lia.
        rewrite IH by lia. replace (0 + (S N - S N)) with 0 by lia.
        destruct (Nat.leb_spec (S N) (S N)); [|lia]. destruct (Nat.leb_spec (S N) b); [|lia]. simpl.
        rewrite Nat.sub_0_r. reflexivity.
      + rewrite get_write_out by lia. rewrite IH by lia.
        destruct (Nat.leb_spec (S N) b); [lia|]. rewrite !andb_false_r. reflexivity.
      + rewrite get_write_out by lia. rewrite IH by lia.
        destruct (Nat.leb_spec a N), (Nat.leb_spec a (S N)); try lia; reflexivity. }
  rewrite G by lia. destruct (Nat.leb_spec i order); [reflexivity|lia].
Qed.

(** A row of H is written at the positions. *)
Lemma h_loop_get nz N dim (pos : nat -> nat) (H : M o nz N) a b : a < nz -> b < N ->
  mget (fold_left (fun H i => fold_left (fun H j => mwrite H i (pos j) (mfun 1 1 (fun _ _ => s1 o))) (seq 0 dim) H) (seq 0 nz) H) a b =
  if existsb (fun j => pos j =? b) (seq 0 dim) then s1 o else mget H a b.
Proof.
  intros ha hb.
  assert (G : forall i K (H : M o nz N), mget (fold_left (fun H j => mwrite H i (pos j) (mfun 1 1 (fun _ _ => s1 o))) (seq 0 K) H) a b =
    if (i =? a) && existsb (fun j => pos j =? b) (seq 0 K) then s1 o else mget H a b).
  { intros i. induction K as [|K IH]; intros H0; [simpl; rewrite andb_false_r; reflexivity|].
    rewrite seq_S, fold_left_app, existsb_app. cbn [fold_left existsb]. rewrite orb_false_r. simpl plus.
    destruct (Nat.eqb_spec i a) as [->|ne]; cbn [andb].
    - destruct (Nat.eqb_spec (pos K) b) as [e|e].
      + rewrite get_write_in by lia. rewrite get_fun by lia. rewrite orb_true_r. reflexivity.
      + rewrite get_write_out by lia. rewrite IH, ?Nat.eqb_refl, orb_false_r. reflexivity.
    - rewrite get_write_out by lia. rewrite IH. destruct (Nat.eqb_spec i a); [lia|reflexivity]. }
  assert (G2 : forall K, K <= nz -> mget (fold_left (fun H i => fold_left (fun H j => mwrite H i (pos j) (mfun 1 1 (fun _ _ => s1 o))) (seq 0 dim) H) (seq 0 K) H) a b =
    if (a <? K) && existsb (fun j => pos j =? b) (seq 0 dim) then s1 o else mget H a b).
  { induction K as [|K IH]; intros hK; [reflexivity|].
    rewrite seq_S, fold_left_app. cbn [fold_left]. rewrite G. simpl plus. rewrite IH by lia.
    destruct (Nat.eqb_spec K a), (Nat.ltb_spec a (S K)), (Nat.ltb_spec a K); try lia; cbn [andb];
      try reflexivity; destruct (existsb _ _); reflexivity. }
  rewrite G2 by lia. destruct (Nat.ltb_spec a nz); [reflexivity|lia].
Qed.

Lemma inv_diagonal_get n (S : M o n n) i j : i < n -> j < n ->
  exists A, inv_diagonal S = Ok A /\ mget A i j = if i =? j then sdiv o (s1 o) (mget S i i) else s0 o.
Proof.
  intros hi hj. unfold inv_diagonal. rewrite Nat.eqb_refl. simpl negb. cbv iota. eexists; split; [reflexivity|].
  assert (G : forall K, K <= n -> mget (fold_left (fun si i => mwrite si i i (mfun 1 1 (fun _ _ => sdiv o (s1 o) (mget S i i)))) (seq 0 K) (mzeros n n)) i j =
    if (i <? K) && (i =? j) then sdiv o (s1 o) (mget S i i) else s0 o).
  { induction K as [|K IH]; intros hK; [apply (proj1 (proj2 L))|].
    rewrite seq_S, fold_left_app. cbn [fold_left]. change (0 + K) with K.
    destruct (Nat.eq_dec i K) as [->|ne]; [destruct (Nat.eq_dec j K) as [->|ne]|].
    - rewrite get_write_in by lia. rewrite get_fun by lia.
      destruct (Nat.ltb_spec K (Datatypes.S K)); [|lia]. rewrite Nat.eqb_refl. reflexivity.
    - rewrite get_write_out by lia. rewrite IH by lia. destruct (Nat.eqb_spec K j); [lia|]. rewrite !andb_false_r. reflexivity.
    - rewrite get_write_out by lia. rewrite IH by lia.
      destruct (Nat.ltb_spec i K), (Nat.ltb_spec i (Datatypes.S K)); try lia; reflexivity. }
  rewrite G by lia. destruct (Nat.ltb_spec i n); [reflexivity|lia].
Qed.
End Get.
