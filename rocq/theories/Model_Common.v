(** * filterpy/common: discretization.py, kinematic.py, numeric helpers of helpers.py *)
From Coq Require Import List Arith Bool ZArith QArith.
From Verif Require Import Ops Model_KF.
Import ListNotations.
Local Open Scope nat_scope.
Set Implicit Arguments.
Unset Strict Implicit.

Section Tables.
Variable o : sops.
Notation "x / y" := (sdiv o x y).
Notation "x * y" := (smul o x y).
Notation "x ** k" := (spow o x k) (at level 30).
Notation "# k" := (snat o k) (at level 5, k at level 0).
Notation half := (s1 o / #2).
Notation quarter := (s1 o / #4).

(** The hard-coded tables of Q_discrete_white_noise (discretization.py:128-139); the literals
    .25 and .5 are 1/4 and 1/2. *)
Definition q_disc_table (dim : nat) (dt : sc o) : list (list (sc o)) :=
  match dim with
  | 2 => [[quarter * dt ** 4; half * dt ** 3];
          [half * dt ** 3; dt ** 2]]
  | 3 => [[quarter * dt ** 4; half * dt ** 3; half * dt ** 2];
          [half * dt ** 3; dt ** 2; dt];
          [half * dt ** 2; dt; s1 o]]
  | _ => [[dt ** 6 / #36; dt ** 5 / #12; dt ** 4 / #6; dt ** 3 / #6];
          [dt ** 5 / #12; dt ** 4 / #4; dt ** 3 / #2; dt ** 2 / #2];
          [dt ** 4 / #6; dt ** 3 / #2; dt ** 2; dt];
          [dt ** 3 / #6; dt ** 2 / #2; dt; s1 o]]
  end.

(** The hard-coded tables of Q_continuous_white_noise (discretization.py:200-213). *)
Definition q_cont_table (dim : nat) (dt : sc o) : list (list (sc o)) :=
  match dim with
  | 2 => [[dt ** 3 / #3; dt ** 2 / #2];
          [dt ** 2 / #2; dt]]
  | 3 => [[dt ** 5 / #20; dt ** 4 / #8; dt ** 3 / #6];
          [dt ** 4 / #8; dt ** 3 / #3; dt ** 2 / #2];
          [dt ** 3 / #6; dt ** 2 / #2; dt]]
  | _ => [[dt ** 7 / #252; dt ** 6 / #72; dt ** 5 / #30; dt ** 4 / #24];
          [dt ** 6 / #72; dt ** 5 / #20; dt ** 4 / #8; dt ** 3 / #6];
          [dt ** 5 / #30; dt ** 4 / #8; dt ** 3 / #3; dt ** 2 / #2];
          [dt ** 4 / #24; dt ** 3 / #6; dt ** 2 / #2; dt]]
  end.

(** runge_kutta4 (helpers.py:222-245); 0.5 is 1/2. *)
Definition runge_kutta4 (y x dx : sc o) (f : sc o -> sc o -> sc o) : sc o :=
  let k1 := dx * f y x in
  let k2 := dx * f (sadd o y (half * k1)) (sadd o x (half * dx)) in
  let k3 := dx * f (sadd o y (half * k2)) (sadd o x (half * dx)) in
  let k4 := dx * f (sadd o y k3) (sadd o x dx) in
  sadd o y (sadd o (sadd o (sadd o k1 (#2 * k2)) (#2 * k3)) k4 / #6).
End Tables.

Section Matrices.
Variable o : nops.
Local Open Scope np_scope.

(** numpy.array of a list of rows. *)
Definition np_array (p q : nat) (l : list (list (sc o))) : M o p q :=
  mfun p q (fun i j => nth j (nth i l []) (s0 o)).

(** scipy.linalg.block_diag( *[Q]*k ) for an n x n block. *)
Definition block_diag (n k : nat) (Q : M o n n) : M o (n * k) (n * k) :=
  mfun (n * k) (n * k) (fun i j => if i / n =? j / n then mget Q (i mod n) (j mod n) else s0 o).

(** The fill loop of order_by_derivative (discretization.py:59-64) and of kinematic_kf
    (kinematic.py:158-163): for every entry x of the n x n matrix Q in row-major order,
    D[(i//n)*k : +k, (i%n)*k : +k] = eye(k) * x. *)
Definition fill_blocks (n k : nat) (Q : M o n n) (D : M o (n * k) (n * k)) : M o (n * k) (n * k) :=
  fold_left (fun D i => mwrite D (i / n * k) (i mod n * k) (mscale (mget Q (i / n) (i mod n)) (meye k)))
            (seq 0 (n * n)) D.

(** order_by_derivative (discretization.py:29-66). *)
Definition order_by_derivative (dim block_size : nat) (Q : M o dim dim) : M o (dim * block_size) (dim * block_size) :=
  fill_blocks Q (mzeros (dim * block_size) (dim * block_size)).

(** Q_discrete_white_noise (discretization.py:70-145). *)
Definition q_discrete_white_noise (dim : nat) (dt var : sc o) (block_size : nat) (order_by_dim : bool)
  : res (M o (dim * block_size) (dim * block_size)) :=
  if negb ((dim =? 2) || (dim =? 3) || (dim =? 4)) then Err ValueError else
  let Q := np_array dim dim (q_disc_table dim dt) in
  Ok (mscale var (if order_by_dim then block_diag block_size Q else order_by_derivative block_size Q)).

(** Q_continuous_white_noise (discretization.py:148-218). *)
Definition q_continuous_white_noise (dim : nat) (dt spectral_density : sc o) (block_size : nat) (order_by_dim : bool)
  : res (M o (dim * block_size) (dim * block_size)) :=
  if negb ((dim =? 2) || (dim =? 3) || (dim =? 4)) then Err ValueError else
  let Q := np_array dim dim (q_cont_table dim dt) in
  Ok (mscale spectral_density (if order_by_dim then block_diag block_size Q else order_by_derivative block_size Q)).

(** van_loan_discretization (discretization.py:221-287); [expm] is scipy.linalg.expm. *)
Definition van_loan_discretization (n k : nat) (expm : M o (n + n) (n + n) -> M o (n + n) (n + n))
    (F : M o n n) (G : M o n k) (dt : sc o) : M o n n * M o n n :=
  let A := mzeros (n + n) (n + n) in
  let A := mwrite A 0 0 (mscale (sopp o (s1 o)) (mscale dt F)) in
  let A := mwrite A 0 n (mscale dt (G @ G^T)) in
  let A := mwrite A n n (mscale dt F^T) in
  let B := expm A in
  let sigma := (mslice B n n n n)^T in
  (sigma, sigma @ mslice B 0 n n n).

(** math.factorial. *)
Fixpoint factorial (n : nat) : nat := match n with 0 => 1 | S k => S k * factorial k end.

(** A Python number used as an order: an int or a (finite) float. *)
Inductive pynum := PyInt (z : Z) | PyFloat (q : Q).
(** [order >= 0 and int(order) == order]; int() truncates towards zero. *)
Definition pynum_ok (a : pynum) : bool :=
  match a with
  | PyInt z => (0 <=? z)%Z
  | PyFloat q => (0 <=? Qnum q)%Z && (Z.quot (Qnum q) (Zpos (Qden q)) * Zpos (Qden q) =? Qnum q)%Z
  end.
Definition pynum_nat (a : pynum) : nat :=
  match a with
  | PyInt z => Z.to_nat z
  | PyFloat q => Z.to_nat (Z.quot (Qnum q) (Zpos (Qden q)))
  end.

(** The loops of kinematic_state_transition (kinematic.py:49-58): the first row, then
    F[j, j:] = F[0, 0:-j] for j = 1..N-1. *)
Definition kst_loops (order : nat) (dt : sc o) : M o (S order) (S order) :=
  let N := S order in
  let F := fold_left (fun F n => mwrite F 0 n (mfun 1 1 (fun _ _ => sdiv o (spow o dt n) (snat o (factorial n)))))
                     (seq 0 N) (mzeros N N) in
  fold_left (fun F j => mwrite F j j (mslice F 0 0 1 (N - j))) (seq 1 order) F.

(** kinematic_state_transition (kinematic.py:26-58) for a natural order. *)
Definition kst (order : nat) (dt : sc o) : M o (S order) (S order) :=
  match order with
  | 0 => np_array 1 1 [[s1 o]]
  | 1 => np_array 2 2 [[s1 o; dt]; [s0 o; s1 o]]
  | 2 => np_array 3 3 [[s1 o; dt; smul o (smul o (sdiv o (s1 o) (snat o 2)) dt) dt];
                       [s0 o; s1 o; dt]; [s0 o; s0 o; s1 o]]
  | S (S (S k)) => kst_loops (S (S (S k))) dt
  end.

(** kinematic_state_transition (kinematic.py:26-58) for any Python number.  A float order above 2
    passes the check but np.zeros refuses a float size. *)
Definition kinematic_state_transition (order : pynum) (dt : sc o)
  : res (M o (S (pynum_nat order)) (S (pynum_nat order))) :=
  if negb (pynum_ok order) then Err ValueError else
  match order with
  | PyFloat _ => if 2 <? pynum_nat order then Err TypeError else Ok (kst (pynum_nat order) dt)
  | PyInt _ => Ok (kst (pynum_nat order) dt)
  end.

(** Argument checks of kinematic_kf (kinematic.py:131-136). *)
Definition kinematic_check (dim order dim_z : Z) : option exn :=
  if (dim <? 1)%Z then Some ValueError else
  if (order <? 0)%Z then Some ValueError else
  if (dim_z <? 1)%Z then Some ValueError else None.

(** kinematic_kf (kinematic.py:61-180) after the checks, for a filter object [kf] of the right
    sizes (the one passed in, or a new KalmanFilter; the asserts on its sizes, 143-144, are the
    typing).  State size dim_x * dim, dim_x = order + 1; only F and H are assigned, and only the
    H entries below. *)
Definition kinematic_kf (dim order dim_z l : nat) (dt : sc o) (order_by_dim : bool)
    (kf : kf o (S order * dim) dim_z l) : Model_KF.kf o (S order * dim) dim_z l :=
  let F := kst order dt in
  let kf := if order_by_dim then set_kf_F (block_diag dim F) kf
            else set_kf_F (fill_blocks F (mzeros (S order * dim) (S order * dim))) kf in
  let pos j := if order_by_dim then j * S order else j in
  set_kf_H (fold_left (fun H i =>
              fold_left (fun H j => mwrite H i (pos j) (mfun 1 1 (fun _ _ => s1 o))) (seq 0 dim) H)
            (seq 0 dim_z) (kf_H kf)) kf.

(** inv_diagonal (helpers.py:345-383): [S.ndim != 2 or not square] is ValueError; a zero on the
    diagonal gives inf with a warning (the sops division), not an exception. *)
Definition inv_diagonal (p q : nat) (S : M o p q) : res (M o p q) :=
  if negb (p =? q) then Err ValueError else
  Ok (fold_left (fun si i => mwrite si i i (mfun 1 1 (fun _ _ => sdiv o (s1 o) (mget S i i)))) (seq 0 p) (mzeros p q)).

(** outer_product_sum (helpers.py:386-437): A and B are M rows; sum over the rows of the outer
    products, accumulated from the first row on. *)
Definition outer_product_sum (r p q : nat) (A : M o r p) (B : M o r q) : M o p q :=
  mfun p q (fun j k => fold_left (fun a i => sadd o a (smul o (mget A i j) (mget B i k))) (seq 0 r) (s0 o)).
End Matrices.

(** reshape_z (helpers.py:324-342).  An ndarray of any rank: its shape and its entries in
    row-major order. *)
Section Reshape.
Variable A : Type.
Record nd := Nd { nd_shape : list nat; nd_data : list A }.
(** np.atleast_2d. *)
Definition atleast_2d (z : nd) : nd :=
  match nd_shape z with
  | [] => Nd [1; 1] (nd_data z)
  | [n] => Nd [1; n] (nd_data z)
  | _ => z
  end.
(** [z.T] of an array of shape (r, c) with data in row-major order; reversed axes in general
    (the data of a transposed array of rank > 2 is not modelled: those are rejected anyway). *)
Definition nd_T (z : nd) : nd :=
  match nd_shape z with
  | [r; c] => Nd [c; r] (flat_map (fun j => flat_map (fun i => match nth_error (nd_data z) (i * c + j) with Some a => [a] | None => [] end) (seq 0 r)) (seq 0 c))
  | s => Nd (rev s) (nd_data z)
  end.
Definition shape_eqb (s t : list nat) : bool := if list_eq_dec Nat.eq_dec s t then true else false.
(** [ndim == 1]: z[:, 0], shape (dim_z,); [ndim == 0]: z[0, 0], a scalar; dim_z = 0 makes the
    latter an IndexError. *)
Definition reshape_z (z : nd) (dim_z ndim : nat) : res nd :=
  let z := atleast_2d z in
  let z := if nth 1 (nd_shape z) 0 =? dim_z then nd_T z else z in
  if negb (shape_eqb (nd_shape z) [dim_z; 1]) then Err ValueError else
  if ndim =? 1 then Ok (Nd [dim_z] (nd_data z)) else
  if ndim =? 0 then match nd_data z with a :: _ => Ok (Nd [] [a]) | [] => Err IndexError end
  else Ok z.
End Reshape.
