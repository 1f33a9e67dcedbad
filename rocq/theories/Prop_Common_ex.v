(** * Argument checks and worked cases of the kinematic helpers (C41-C44), runge_kutta4 (C46),
      reshape_z (C47). *)
From Coq Require Import List Arith Bool ZArith QArith Lia Reals Lra.
From Coquelicot Require Import Coquelicot.
From Verif Require Import Ops ListOps RealOps Model_KF Model_Common.
Import ListNotations.
Local Close Scope Q_scope.
Local Close Scope R_scope.
Local Open Scope nat_scope.

(** ** C43: which orders are accepted.  The value of a Python number as a rational. *)
Definition pyval (a : pynum) : Q := match a with PyInt z => inject_Z z | PyFloat q => q end.

(** Whatever the arithmetic: an order whose value is not a non-negative integer raises ValueError;
    any int order >= 0, and any float order equal to 0, 1 or 2, is accepted; a float order equal to
    a larger integer passes the check and then fails with a TypeError. *)
Theorem C43_order_check : forall (o : nops) (order : pynum) (dt : sc o),
  ((~ exists n : nat, pyval order == inject_Z (Z.of_nat n))%Q -> kinematic_state_transition order dt = Err ValueError) /\
  (forall n : nat, (pyval order == inject_Z (Z.of_nat n))%Q ->
    pynum_nat order = n /\
    ((n <= 2 \/ exists z, order = PyInt z) -> kinematic_state_transition order dt = Ok (kst _ dt)) /\
    ((3 <= n /\ exists q, order = PyFloat q) -> kinematic_state_transition order dt = Err TypeError)).
Proof.
  intros o order dt. unfold kinematic_state_transition.
  assert (K : forall n : nat, (pyval order == inject_Z (Z.of_nat n))%Q -> pynum_nat order = n /\ pynum_ok order = true).
  { intros n; destruct order as [z|[a d]]; cbn [pyval pynum_nat pynum_ok Qnum Qden].
    - intros E; unfold Qeq in E; cbn in E. assert (z = Z.of_nat n) as -> by lia.
      split; [apply Nat2Z.id|apply Z.leb_le; lia].
    - intros E; unfold Qeq in E; cbn in E. assert (a = Z.of_nat n * Zpos d)%Z as -> by lia.
      rewrite Z.quot_mul by lia. rewrite Nat2Z.id; split; [reflexivity|].
      apply andb_true_iff; split; [apply Z.leb_le; lia|apply Z.eqb_refl]. }
  assert (K' : pynum_ok order = true -> exists n : nat, (pyval order == inject_Z (Z.of_nat n))%Q).
  { destruct order as [z|[a d]]; cbn [pyval pynum_ok Qnum Qden].
    - intros h; apply Z.leb_le in h; exists (Z.to_nat z). rewrite Z2Nat.id by lia; reflexivity.
    - intros h; apply andb_true_iff in h as [h e]; apply Z.leb_le in h; apply Z.eqb_eq in e.
      exists (Z.to_nat (Z.quot a (Zpos d))). rewrite Z2Nat.id by (apply Z.quot_pos; lia).
      unfold Qeq; cbn; lia. }
  split.
  - intros h. destruct (pynum_ok order); [exfalso; auto|reflexivity].
  - intros n E. destruct (K n E) as [en ok]. rewrite ok; cbn [negb]. split; [exact en|split].
    + destruct order as [z|q]; [reflexivity|]. intros [h|[z e]]; [|discriminate].
      rewrite (proj2 (Nat.ltb_ge 2 _)) by lia. reflexivity.
    + intros [h [q ->]]. rewrite (proj2 (Nat.ltb_lt 2 _)) by lia. reflexivity.
Qed.
Print Assumptions C43_order_check.

(** The int 3 and the float 3.0 are equal numbers; only the int is accepted. *)
Theorem C43_float_order_refuted : forall (o : nops) (dt : sc o),
  (pyval (PyInt 3) == pyval (PyFloat 3))%Q /\ (exists F, kinematic_state_transition (PyInt 3) dt = Ok F) /\
  kinematic_state_transition (PyFloat 3) dt = Err TypeError.
Proof. intros o dt. split; [reflexivity|split; [eexists|]; reflexivity]. Qed.
Print Assumptions C43_float_order_refuted.

Example C43_example :
  kinematic_state_transition (o := QO) (PyInt 3) (2#1)%Q = Ok [[1; 2; 2; 4#3]; [0; 1; 2; 2]; [0; 0; 1; 2]; [0; 0; 0; 1]]%Q /\
  kinematic_state_transition (o := QO) (PyFloat (1#2)) (2#1)%Q = Err ValueError /\
  kinematic_state_transition (o := QO) (PyInt (-1)) (2#1)%Q = Err ValueError.
Proof. repeat split; vm_compute; reflexivity. Qed.

(** ** C44: the checks, and the H matrix of a two-dimensional first-order filter measuring two
    values: both rows measure the sum of the positions, so the two positions cannot be told apart. *)
Theorem C44_checks : forall dim order dim_z : Z,
  kinematic_check dim order dim_z = (if ((1 <=? dim) && (0 <=? order) && (1 <=? dim_z))%Z then None else Some ValueError).
Proof.
  intros a b c. unfold kinematic_check.
  destruct (Z.ltb_spec a 1), (Z.leb_spec 1 a); try lia; cbn; try reflexivity.
  destruct (Z.ltb_spec b 0), (Z.leb_spec 0 b); try lia; cbn; try reflexivity.
  destruct (Z.ltb_spec c 1), (Z.leb_spec 1 c); try lia; cbn; reflexivity.
Qed.
Print Assumptions C44_checks.

Definition ex_kin (b : bool) : kf QO 4 2 1 := @kinematic_kf QO 2 1 2 1 (1#1)%Q b (@kf_init QO 4 2 1 (1#1024)%Q (l_inv2 QS)).
(** If each measured value were one axis, H would be ((1,0,0,0),(0,0,1,0)). *)
Theorem C44_one_position_per_row_refuted :
  kf_H (ex_kin true) = [[1; 0; 1; 0]; [1; 0; 1; 0]]%Q /\ kf_H (ex_kin false) = [[1; 1; 0; 0]; [1; 1; 0; 0]]%Q.
Proof. split; vm_compute; reflexivity. Qed.
Print Assumptions C44_one_position_per_row_refuted.
Example C44_example :
  kf_F (ex_kin true) = [[1; 1; 0; 0]; [0; 1; 0; 0]; [0; 0; 1; 1]; [0; 0; 0; 1]]%Q /\
  kf_F (ex_kin false) = [[1; 0; 1; 0]; [0; 1; 0; 1]; [0; 0; 1; 0]; [0; 0; 0; 1]]%Q.
Proof. split; vm_compute; reflexivity. Qed.

(** ** C41, C42: worked cases. *)
Example C41_example :
  @q_discrete_white_noise QO 2 (2#1)%Q (3#1)%Q 2 true = Ok [[12; 12; 0; 0]; [12; 12; 0; 0]; [0; 0; 12; 12]; [0; 0; 12; 12]]%Q /\
  @q_discrete_white_noise QO 2 (2#1)%Q (3#1)%Q 2 false = Ok [[12; 0; 12; 0]; [0; 12; 0; 12]; [12; 0; 12; 0]; [0; 12; 0; 12]]%Q.
Proof. split; vm_compute; reflexivity. Qed.
Example C42_example :
  @q_continuous_white_noise QO 3 (1#1)%Q (120#1)%Q 1 true = Ok [[6; 15; 20]; [15; 40; 60]; [20; 60; 120]]%Q.
Proof. vm_compute; reflexivity. Qed.

(** ** C46: runge_kutta4, in the real numbers. *)
Section RK.
Local Open Scope R_scope.

Lemma zero_derivative_const (g : R -> R) : (forall t, is_derive g t 0) -> forall a b, g a = g b.
Proof.
  intros h a b.
  destruct (MVT_gen g a b (fun _ => 0)) as [c [_ e]].
  - intros x _. apply h.
  - intros x _. apply continuity_pt_filterlim, (@ex_derive_continuous R_AbsRing R_NormedModule). exists 0. apply h.
  - lra.
Qed.

(** If y' = p(x) for a polynomial p of degree <= 3, one step gives the exact solution: for every
    function Y with that derivative, stepping from Y(x) lands on Y(x + dx). *)
Theorem C46_exact_for_cubics : forall (c0 c1 c2 c3 : R) (Y : R -> R) (x dx : R),
  let p t := c0 + c1 * t + c2 * t ^ 2 + c3 * t ^ 3 in
  (forall t, is_derive Y t (p t)) ->
  @runge_kutta4 RS (Y x) x dx (fun _ t => p t) = Y (x + dx).
Proof.
  intros c0 c1 c2 c3 Y x dx p h.
  pose (q t := c0 * t + c1 * t ^ 2 / 2 + c2 * t ^ 3 / 3 + c3 * t ^ 4 / 4).
  assert (E : Y (x + dx) = Y x + (q (x + dx) - q x)).
  { enough (Y (x + dx) - q (x + dx) = Y x - q x) by lra.
    apply (zero_derivative_const (fun t => Y t - q t)). intros t.
    evar_last; [apply @is_derive_minus; [apply h|]|].
    - unfold q. auto_derive; [exact I|reflexivity].
    - unfold p, minus, plus, opp; simpl. field. }
  rewrite E. unfold runge_kutta4, q, p. rs. field.
Qed.
Print Assumptions C46_exact_for_cubics.

Fixpoint rk_steps (y x dx : R) (f : R -> R -> R) (n : nat) : R :=
  match n with O => y | S k => rk_steps (@runge_kutta4 RS y x dx f) (x + dx) dx f k end.

(** ... and so do n steps. *)
Theorem C46_exact_steps : forall (c0 c1 c2 c3 : R) (Y : R -> R) (dx : R) (n : nat) (x : R),
  let p t := c0 + c1 * t + c2 * t ^ 2 + c3 * t ^ 3 in
  (forall t, is_derive Y t (p t)) ->
  rk_steps (Y x) x dx (fun _ t => p t) n = Y (x + INR n * dx).
Proof.
  intros c0 c1 c2 c3 Y dx n. induction n as [|n IH]; intros x p h.
  - cbn. f_equal. ring.
  - cbn [rk_steps]. transitivity (rk_steps (Y (x + dx)) (x + dx) dx (fun _ t => p t) n);
    [exact (f_equal (fun v => rk_steps v (x + dx) dx (fun _ t => p t) n) (C46_exact_for_cubics c0 c1 c2 c3 Y x dx h))|].
    rewrite IH by exact h. f_equal. rewrite S_INR. ring.
Qed.
Print Assumptions C46_exact_steps.

(** For y' = a y + b a step multiplies the distance to the equilibrium by the degree-4 Taylor
    polynomial of exp(a dx). *)
Theorem C46_linear : forall (a b y x dx : R) (n : nat), a <> 0 ->
  rk_steps y x dx (fun y _ => a * y + b) n =
  - b / a + (y + b / a) * (sum_f_R0 (fun k => (a * dx) ^ k / INR (fact k)) 4) ^ n.
Proof.
  intros a b y x dx n ha. revert y x. induction n as [|n IH]; intros y x.
  - cbn [rk_steps pow]. field; exact ha.
  - cbn [rk_steps]. rewrite IH. cbn [pow]. rewrite <- Rmult_assoc. f_equal. f_equal.
    unfold runge_kutta4. cbn [sum_f_R0 fact Nat.mul Nat.add]. rs. field. exact ha.
Qed.
Print Assumptions C46_linear.

(** The degree-4 Taylor polynomial approximates the exponential to fifth order: one step of y' = a y
    is wrong by at most |y| |a dx|^5 exp|a dx| / 120. *)
Theorem C46_local_error : forall (a y x dx : R),
  Rabs (@runge_kutta4 RS y x dx (fun y _ => a * y) - y * exp (a * dx)) <= Rabs y * (Rabs (a * dx) ^ 5 / 120 * exp (Rabs (a * dx))).
Proof.
  intros a y x dx. set (u := a * dx).
  assert (D : forall n t, is_derive_n (fun t => exp (u * t)) n t (u ^ n * exp (u * t))).
  { induction n as [|n IH]; intros t; [cbn; ring|]. cbn [is_derive_n].
    apply (is_derive_ext (fun t => u ^ n * exp (u * t))).
    - intros s. symmetry. apply is_derive_n_unique, IH.
    - auto_derive; [exact I|]. cbn [pow]. ring. }
  destruct (Taylor_Lagrange (fun t => exp (u * t)) 4 0 1) as [z [hz E]]; [lra|intros t _ k _; destruct k; [exact I|exact (ex_intro _ _ (D (S k) t))]|].
  rewrite (is_derive_n_unique _ _ _ _ (D 5%nat z)) in E.
  cbn [sum_f_R0] in E.
  rewrite (is_derive_n_unique _ _ _ _ (D 4%nat 0)), (is_derive_n_unique _ _ _ _ (D 3%nat 0)), (is_derive_n_unique _ _ _ _ (D 2%nat 0)),
    (is_derive_n_unique _ _ _ _ (D 1%nat 0)), (is_derive_n_unique _ _ _ _ (D 0%nat 0)) in E.
  rewrite Rmult_1_r, Rmult_0_r, exp_0 in E.
  assert (T : @runge_kutta4 RS y x dx (fun y _ => a * y) - y * exp u = - (y * (u ^ 5 / 120 * exp (u * z)))).
  { rewrite E. cbn [fact Nat.mul Nat.add]. unfold runge_kutta4, u. rs. field. }
  rewrite T, Rabs_Ropp, Rabs_mult. apply Rmult_le_compat_l; [apply Rabs_pos|].
  unfold Rdiv. rewrite !Rabs_mult, <- RPow_abs. rewrite (Rabs_pos_eq (/ 120)) by lra. rewrite (Rabs_pos_eq (exp _)) by (left; apply exp_pos).
  apply Rmult_le_compat_l; [apply Rmult_le_pos; [apply pow_le, Rabs_pos|lra]|].
  assert (L : u * z <= Rabs u).
  { apply Rle_trans with (Rabs u * z); [apply Rmult_le_compat_r; [lra|apply Rle_abs]|].
    rewrite <- (Rmult_1_r (Rabs u)) at 2. apply Rmult_le_compat_l; [apply Rabs_pos|lra]. }
  destruct L as [L|L]; [left; apply exp_increasing, L|rewrite L; apply Rle_refl].
Qed.
Print Assumptions C46_local_error.
End RK.

Example C46_example : @runge_kutta4 QS 1%Q 0%Q 2%Q (fun _ t => (t * t * t)%Q) = (5#1)%Q.
Proof. vm_compute; reflexivity. Qed.

(** ** C47: reshape_z. *)
Section Resh.
Variable A : Type.
(** An array has as many entries as its shape says. *)
Definition nd_wf (z : nd A) : Prop := length (nd_data z) = fold_right Nat.mul 1 (nd_shape z).
(** A scalar (if dim_z = 1), a vector of dim_z values, a row or a column of dim_z values. *)
Definition z_shape (s : list nat) (dim_z : nat) : Prop :=
  (s = [] /\ dim_z = 1) \/ s = [dim_z] \/ s = [1; dim_z] \/ s = [dim_z; 1].

Lemma nd_T_row (d : list A) (n : nat) : length d = n -> nd_T (Nd [1; n] d) = Nd [n; 1] d.
Proof.
  intros h. unfold nd_T; cbn [nd_shape nd_data]. f_equal.
  assert (K : forall l k, length l = n - k -> k <= n -> (forall i, nth_error d (k + i) = nth_error l i) ->
    flat_map (fun j => flat_map (fun i => match nth_error d (i * n + j) with Some a => [a] | None => [] end) (seq 0 1)) (seq k (n - k)) = l).
  { induction l as [|a l IH]; intros k hl hk e.
    - rewrite <- hl; reflexivity.
    - cbn in hl. replace (n - k) with (S (n - S k)) by lia. cbn [seq flat_map].
      rewrite IH; [|lia|lia|intros i; specialize (e (S i)); cbn in e; rewrite <- e; f_equal; lia].
      cbn. specialize (e 0). rewrite Nat.add_0_r in e. rewrite e. reflexivity. }
  specialize (K d 0). rewrite Nat.sub_0_r in K. apply K; [lia|lia|reflexivity].
Qed.

(** The accepted shapes are exactly these four; the entries are kept in order.  The result is a
    column for ndim = 2 (any ndim other than 0 and 1), a vector for ndim = 1; for ndim = 0 only the
    first entry is returned. *)
Theorem C47_reshape_z : forall (z : nd A) (dim_z ndim : nat), nd_wf z ->
  (~ z_shape (nd_shape z) dim_z -> reshape_z z dim_z ndim = Err ValueError) /\
  (z_shape (nd_shape z) dim_z ->
     length (nd_data z) = dim_z /\
     (ndim <> 0 -> ndim <> 1 -> reshape_z z dim_z ndim = Ok (Nd [dim_z; 1] (nd_data z))) /\
     (ndim = 1 -> reshape_z z dim_z ndim = Ok (Nd [dim_z] (nd_data z))) /\
     (ndim = 0 -> forall a l, nd_data z = a :: l -> reshape_z z dim_z ndim = Ok (Nd [] [a]))).
Proof.
  intros [s d] dim_z ndim wf. unfold nd_wf in wf; cbn [nd_shape nd_data] in *.
  assert (C : forall x : nd A, (let y := if nth 1 (nd_shape (atleast_2d x)) 0 =? dim_z then nd_T (atleast_2d x) else atleast_2d x in y = Nd [dim_z; 1] d) ->
    (ndim <> 0 -> ndim <> 1 -> reshape_z x dim_z ndim = Ok (Nd [dim_z; 1] d)) /\
    (ndim = 1 -> reshape_z x dim_z ndim = Ok (Nd [dim_z] d)) /\
    (ndim = 0 -> forall a l, d = a :: l -> reshape_z x dim_z ndim = Ok (Nd [] [a]))).
  { intros x e. unfold reshape_z. cbv zeta in e |- *. rewrite e. cbn [nd_shape nd_data].
    unfold shape_eqb. destruct (list_eq_dec Nat.eq_dec [dim_z; 1] [dim_z; 1]) as [_|n]; [cbn [negb]|congruence].
    repeat split.
    - intros h0 h1. apply Nat.eqb_neq in h0, h1. rewrite h0, h1. reflexivity.
    - intros ->. reflexivity.
    - intros -> a l ->. reflexivity. }
  split.
  - intros n. unfold reshape_z. cbv zeta.
    match goal with |- context [shape_eqb ?a ?b] => destruct (shape_eqb a b) eqn:E; [exfalso|reflexivity] end.
    unfold shape_eqb in E. match type of E with (if ?c then _ else _) = _ => destruct c as [e|]; [clear E|discriminate] end.
    apply n. unfold z_shape. destruct s as [|a [|b [|c s]]]; cbn in e.
    + destruct dim_z as [|[|?]]; cbn in e; try discriminate; auto.
    + destruct (Nat.eqb_spec a dim_z) as [->|ne]; [auto|]. cbn in e. injection e as e1 e2. subst. congruence.
    + destruct (Nat.eqb_spec b dim_z) as [->|ne]; cbn in e; injection e as; subst; auto.
    + destruct (Nat.eqb_spec b dim_z) as [->|ne]; cbn in e; [|discriminate].
      apply (f_equal (@length nat)) in e. rewrite !app_length in e. cbn in e. lia.
  - intros [[-> ->] | [-> | [-> | ->]]]; cbn in wf.
    + split; [exact wf|]. apply C. cbn. destruct d as [|a [|? ?]]; try discriminate. reflexivity.
    + split; [lia|]. apply C. cbn [atleast_2d nd_shape nd_data nth]. rewrite Nat.eqb_refl. apply nd_T_row. lia.
    + split; [lia|]. apply C. cbn [atleast_2d nd_shape nd_data nth]. rewrite Nat.eqb_refl. apply nd_T_row. lia.
    + split; [lia|]. apply C. cbn [atleast_2d nd_shape nd_data nth].
      destruct (Nat.eqb_spec 1 dim_z) as [<-|]; [|reflexivity]. apply nd_T_row. lia.
Qed.

(** Reshaping an already reshaped measurement again, to the same or another of the array forms,
    never fails and loses nothing. *)
Corollary C47_idempotent : forall (z : nd A) (dim_z n1 n2 : nat) (y : nd A), nd_wf z -> n1 <> 0 -> n2 <> 0 ->
  reshape_z z dim_z n1 = Ok y ->
  exists y', reshape_z y dim_z n2 = Ok y' /\ reshape_z z dim_z n2 = Ok y' /\ nd_data y' = nd_data z.
Proof.
  intros z dim_z n1 n2 y wf h1 h2 e.
  destruct (C47_reshape_z z dim_z n1 wf) as [bad good]. destruct (C47_reshape_z z dim_z n2 wf) as [_ good2].
  assert (S : z_shape (nd_shape z) dim_z).
  { unfold z_shape. destruct z as [s d]; cbn in *.
    destruct (list_eq_dec Nat.eq_dec s [dim_z]); [auto|]. destruct (list_eq_dec Nat.eq_dec s [1; dim_z]); [auto|].
    destruct (list_eq_dec Nat.eq_dec s [dim_z; 1]); [auto|].
    destruct (list_eq_dec Nat.eq_dec s []), (Nat.eq_dec dim_z 1); auto;
    (rewrite bad in e; [discriminate|intros [[? ?] | [? | [? | ?]]]; auto]). }
  destruct (good S) as [L [g2 [g1 _]]]. destruct (good2 S) as [_ [f2 [f1 _]]].
  assert (Y : nd_wf y /\ z_shape (nd_shape y) dim_z /\ nd_data y = nd_data z).
  { destruct (Nat.eq_dec n1 1) as [k|k].
    - rewrite g1 in e by exact k. injection e as <-. unfold nd_wf, z_shape; cbn. repeat split; auto; lia.
    - rewrite g2 in e by auto. injection e as <-. unfold nd_wf, z_shape; cbn. repeat split; auto; lia. }
  destruct Y as [wy [sy dy]]. destruct (C47_reshape_z y dim_z n2 wy) as [_ good3]. destruct (good3 sy) as [_ [k2 [k1 _]]].
  destruct (Nat.eq_dec n2 1) as [k|k].
  - exists (Nd [dim_z] (nd_data z)). rewrite k1, dy, f1 by exact k. auto.
  - exists (Nd [dim_z; 1] (nd_data z)). rewrite k2, dy, f2 by auto. auto.
Qed.
End Resh.
Print Assumptions C47_reshape_z.
Print Assumptions C47_idempotent.

(** ndim = 0 (a filter whose x is a scalar) accepts a longer measurement and silently keeps only
    its first entry. *)
Theorem C47_scalar_drops_entries_refuted :
  reshape_z (Nd [3] [7; 8; 9]) 3 0 = Ok (Nd [] [7]) /\ reshape_z (Nd [] [7]) 3 0 = Err ValueError.
Proof. split; reflexivity. Qed.
Print Assumptions C47_scalar_drops_entries_refuted.
Example C47_example :
  reshape_z (Nd [1; 3] [7; 8; 9]) 3 2 = Ok (Nd [3; 1] [7; 8; 9]) /\ reshape_z (Nd [3; 1] [7; 8; 9]) 3 1 = Ok (Nd [3] [7; 8; 9]) /\
  reshape_z (Nd [2; 3] [1; 2; 3; 4; 5; 6]) 3 2 = Err ValueError /\ reshape_z (Nd [1; 3; 1] [1; 2; 3]) 3 2 = Err ValueError.
Proof. repeat split. Qed.
