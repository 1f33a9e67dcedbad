(** * linear_ode_discretation (filterpy/common/discretization.py:290-319). *)
From Coq Require Import List Arith.
From Verif Require Import Ops.
Set Implicit Arguments.
Unset Strict Implicit.
Local Open Scope np_scope.

Section Ode.
Variable o : nops.
(** scipy.linalg.expm, at two sizes, and numpy.linalg.inv. *)
Variable expm : forall p, M o p p -> M o p p.
Variable inv : forall p, M o p p -> option (M o p p).

(** Lines 303-319 with L of n x k entries and Q of k x k. *)
Definition linear_ode_core (n k : nat) (F : M o n n) (L : M o n k) (Q : M o k k) (dt : sc o) : res (M o n n * M o n n) :=
  let A := expm (mscale dt F) in
  let phi := mzeros (n + n) (n + n) in
  let phi := mwrite phi 0 0 F in
  let phi := mwrite phi 0 n ((L @ Q) @ L^T) in
  let phi := mwrite phi n n (mscale (sopp o (s1 o)) F^T) in
  let zo : M o (n + n) n := mfun (n + n) n (fun i j => if i <? n then s0 o else mget (meye n) (i - n) j) in
  let CD := expm (mscale dt phi) @ zo in
  let C := mslice CD 0 0 n n in
  let D := mslice CD n 0 n n in
  match inv D with None => Err LinAlgError | Some Di => Ok (A, C @ Di) end.

(** The defaults (297-301): L = eye(n), Q = zeros((n, n)).  Modelled for n x n arguments; dt is always given here
    (its default is 1). *)
Definition linear_ode_discretation (n : nat) (F : M o n n) (L Q : option (M o n n)) (dt : sc o) : res (M o n n * M o n n) :=
  linear_ode_core F (opt_or (meye n) L) (opt_or (mzeros n n) Q) dt.
End Ode.
