(** * filterpy/stats/stats.py (numeric part; the plotting functions are not modelled) *)
From Coq Require Import List Arith Bool.
From Verif Require Import Ops.
Import ListNotations.
Set Implicit Arguments.
Unset Strict Implicit.

Section Scalar.
Variable o : sops.
Notation "x + y" := (sadd o x y).
Notation "x - y" := (ssub o x y).
Notation "x * y" := (smul o x y).
Notation "x / y" := (sdiv o x y).
Notation "# k" := (snat o k) (at level 5, k at level 0).
(** [math.pi]. *)
Variable pi : sc o.

(** gaussian (157-201) for a scalar x.  [(..)**-.5] is one over the square root. *)
Definition gaussian (x mean var : sc o) : sc o :=
  (s1 o / ssqrt o (#2 * pi * var)) *
  sexp o ((sopp o (s1 o / #2) * spow o (x - mean) 2) / var).

(** gaussian for an array x: normalised by the built-in sum if [normed] (198-199). *)
Definition gaussian_array (xs : list (sc o)) (mean var : sc o) (normed : bool) : list (sc o) :=
  let pdf := map (fun x => gaussian x mean var) xs in
  if normed then let s := fold_left (sadd o) pdf (s0 o) in map (fun p => p / s) pdf else pdf.

(** mul (205-251). *)
Definition mul (mean1 var1 mean2 var2 : sc o) : sc o * sc o :=
  ((var1 * mean2 + var2 * mean1) / (var1 + var2),
   s1 o / (s1 o / var1 + s1 o / var2)).

(** mul_pdf (254-307). *)
Definition mul_pdf (mean1 var1 mean2 var2 : sc o) : sc o * sc o * sc o :=
  ((var1 * mean2 + var2 * mean1) / (var1 + var2),
   s1 o / (s1 o / var1 + s1 o / var2),
   sexp o (sopp o (spow o (mean1 - mean2) 2) / (#2 * (var1 + var2))) / ssqrt o (#2 * pi * (var1 + var2))).

(** add (310-318). *)
Definition add (mean1 var1 mean2 var2 : sc o) : sc o * sc o := (mean1 + mean2, var1 + var2).

(** norm_cdf (1070-1100); [cdf x mu std] is scipy's norm.cdf. *)
Definition norm_cdf (cdf : sc o -> sc o -> sc o -> sc o) (a b mu var : sc o) (std : option (sc o)) : sc o :=
  let std := match std with Some s => s | None => ssqrt o var end in
  let d := cdf a mu std - cdf b mu std in
  if sltb o d (s0 o) then sopp o d else d.
End Scalar.

Section Matrix.
Variable o : nops.
Local Open Scope np_scope.

(** [x - mean] of two 1-D arrays of one length, as a column. *)
Definition col_of (n : nat) (l : list (sc o)) : M o n 1 := mfun n 1 (fun i _ => nth i l (s0 o)).

(** mahalanobis (64-109) for 1-D arrays (or what _validate_vector squeezes to 1-D) and a 2-D
    (n, n) covariance; float(..) of the 1x1 product; math.sqrt raises on a negative argument. *)
Definition mahalanobis (n : nat) (linv : M o n n -> option (M o n n)) (x mean : list (sc o)) (cov : M o n n) : res (sc o) :=
  if negb (length x =? length mean) then Err ValueError else
  match linv cov with
  | None => Err LinAlgError
  | Some SI =>
      if negb (length x =? n) then Err ValueError else
      let y := col_of n (map (fun p => ssub o (fst p) (snd p)) (combine x mean)) in
      let dist := mget ((y^T @ SI) @ y) 0 0 in
      if sltb o dist (s0 o) then Err ValueError else Ok (ssqrt o dist)
  end.

(** log_likelihood, likelihood (112-128). *)
Definition log_likelihood (n m : nat) (logpdf : M o m 1 -> M o m 1 -> M o m m -> sc o)
    (z : M o m 1) (x : M o n 1) (P : M o n n) (H : M o m n) (R : M o m m) : sc o :=
  let S := H @ (P @ H^T) + R in logpdf z (H @ x) S.
Definition likelihood (n m : nat) (logpdf : M o m 1 -> M o m 1 -> M o m m -> sc o)
    (z : M o m 1) (x : M o n 1) (P : M o n n) (H : M o m n) (R : M o m m) : sc o :=
  sexp o (log_likelihood logpdf z x P H R).

(** multivariate_multiply (400-455). *)
Definition multivariate_multiply (n : nat) (linv : M o n n -> option (M o n n))
    (m1 : M o n 1) (c1 : M o n n) (m2 : M o n 1) (c2 : M o n n) : res (M o n 1 * M o n n) :=
  match linv (c1 + c2) with
  | None => Err LinAlgError
  | Some sum_inv =>
      Ok ((c2 @ sum_inv) @ m1 + (c1 @ sum_inv) @ m2, (c1 @ sum_inv) @ c2)
  end.

(** _to_cov (1103-1124). *)
Definition to_cov (n : nat) (chol : M o n n -> option (M o n n)) (x : sm o n) : res (M o n n) :=
  match x with
  | Scal q => if sltb o q (s0 o) then Err ValueError else Ok (mscale q (meye n))
  | Mat A => match chol A with None => Err ValueError | Some _ => Ok A end
  end.

(** multivariate_gaussian (321-397) for x and mu of one length and a scalar or dense
    covariance: [chol], [solve], [logdet] are numpy.linalg.cholesky, solve and
    slogdet()[1]; the DeprecationWarning is not modelled. *)
Definition multivariate_gaussian (n : nat) (chol : M o n n -> option (M o n n))
    (solve : M o n n -> M o n 1 -> option (M o n 1)) (logdet : M o n n -> sc o)
    (pi : sc o) (x mu : M o n 1) (cov : sm o n) : res (sc o) :=
  rbind (to_cov chol cov) (fun cov =>
  let norm_coeff := sadd o (smul o (snat o n) (slog o (smul o (snat o 2) pi))) (logdet cov) in
  let err := x - mu in
  match solve cov err with
  | None => Err LinAlgError
  | Some v =>
      let numerator := mget (v^T @ err) 0 0 in
      Ok (sexp o (smul o (sopp o (sdiv o (s1 o) (snat o 2))) (sadd o norm_coeff numerator)))
  end).

(** NEES (1138-1179) on lists of columns.  [xs - est_xs] needs equal lengths; the zip with
    [ps] stops at the shorter list. *)
Fixpoint nees_loop (n : nat) (linv : M o n n -> option (M o n n)) (errs : list (M o n 1)) (ps : list (M o n n)) : res (list (sc o)) :=
  match errs, ps with
  | e :: errs, p :: ps =>
      match linv p with
      | None => Err LinAlgError
      | Some i => rmap (cons (mget ((e^T @ i) @ e) 0 0)) (nees_loop linv errs ps)
      end
  | _, _ => Ok []
  end.
Definition NEES (n : nat) (linv : M o n n -> option (M o n n)) (xs est_xs : list (M o n 1)) (ps : list (M o n n)) : res (list (sc o)) :=
  if negb (length xs =? length est_xs) then Err ValueError
  else nees_loop linv (map (fun p => fst p - snd p) (combine xs est_xs)) ps.
End Matrix.
