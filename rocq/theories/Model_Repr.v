(** * Printing: pretty_str (common/helpers.py) and the __repr__ methods.  NumPy's str() is data: each value carries its text. *)
From Coq Require Import List Arith Bool String Ascii DecimalString.
From Verif Require Import Ops Model_KF Model_EKF.
Import ListNotations.
Local Open Scope string_scope.

Definition nl : string := String "010" "".
(** str.split("\n"). *)
Fixpoint lines (s : string) : list string :=
  match s with
  | "" => [""]
  | String c r =>
      if Ascii.eqb c "010" then "" :: lines r
      else match lines r with [] => [String c ""] | l :: ls => String c l :: ls end
  end.
(** str.replace("\n", ""). *)
Fixpoint unline (s : string) : string :=
  match s with "" => "" | String c r => if Ascii.eqb c "010" then unline r else String c (unline r) end.
Fixpoint blanks (k : nat) : string := match k with 0 => "" | S k => String " " (blanks k) end.
(** str(i) of a natural number. *)
Definition dec (i : nat) : string := NilZero.string_of_uint (Nat.to_uint i).

(** A value that is not a list, tuple or deque: len() if it has one, str(type(a)()) if that call works, a.shape if it has one,
    str(a), and str(a.T) (read for columns only). *)
Record leaf := mkLeaf { lf_len : option nat; lf_new : option string; lf_shape : option (list nat); lf_str : string; lf_strT : string }.
(** A list, tuple or deque carries the text of an empty one of its type. *)
Inductive pval := PSeq (e : string) (l : list pval) | PLeaf (a : leaf).

(** is_col (266-271): a missing shape or a missing axis is caught. *)
Definition is_col (a : leaf) : bool :=
  match lf_shape a with Some (r :: c :: _) => (Nat.ltb 1 r) && (Nat.eqb c 1) | _ => false end.
(** 285-301. *)
Definition pretty_body (label : string) (a : leaf) : string :=
  let label := if (label =? "")%string then "" else label ++ " = " in
  if is_col a then label ++ unline (lf_strT a) ++ ".T"
  else match lines (lf_str a) with
       | [] => ""
       | r :: rows => fold_left (fun s line => s ++ nl ++ blanks (length label) ++ line) rows (label ++ r)
       end.
(** pretty_str (248-301) with a label.  An ndarray of length 0 gets past 276, where type(arr)() raises TypeError. *)
Fixpoint pretty (label : string) (v : pval) : string :=
  match v with
  | PSeq e [] => label ++ " = " ++ e
  | PSeq _ l =>
      String.concat nl
        ((fix go (i : nat) (l : list pval) : list string :=
            match l with [] => [] | x :: r => pretty (label ++ "[" ++ dec i ++ "]") x :: go (S i) r end) 0%nat l)
  | PLeaf a =>
      match lf_len a, lf_new a with
      | Some 0%nat, Some e => label ++ " = " ++ e
      | _, _ => pretty_body label a
      end
  end.
(** pretty_str with label None: [None + "..."] is a TypeError, caught at 277 but not at 282. *)
Definition pretty_str (label : option string) (v : pval) : res string :=
  match label, v with
  | Some label, v => Ok (pretty label v)
  | None, PSeq _ [] => Ok ""
  | None, PSeq _ _ => Err TypeError
  | None, PLeaf a => Ok (pretty_body "" a)
  end.

(** A __repr__ method: its first line and the labels with the attributes read for them. *)
Definition cls : Type := string * list (string * string).
Definition same (a : string) : string * string := (a, a).
(** [env] gives the attributes (and properties) of the object; those that change the object when read are dealt with below. *)
Definition repr (c : cls) (env : string -> pval) : string :=
  String.concat nl (fst c :: map (fun p => pretty (fst p) (env (snd p))) (snd c)).
(** kalman/kalman_filter.py 1269-1297. *)
Definition repr_KalmanFilter : cls := ("KalmanFilter object", [same "dim_x"; same "dim_z"; same "dim_u"; same "x"; same "P"; same "x_prior"; same "P_prior"; same "x_post"; same "P_post"; same "F"; same "Q"; same "R"; same "H"; same "K"; same "y"; same "S"; same "SI"; same "M"; same "B"; same "z"; ("log-likelihood", "log_likelihood"); same "likelihood"; same "mahalanobis"; same "alpha"; same "inv"]).
(** kalman/EKF.py 412-428. *)
Definition repr_ExtendedKalmanFilter : cls := ("KalmanFilter object", [same "x"; same "P"; same "x_prior"; same "P_prior"; same "F"; same "Q"; same "R"; same "K"; same "y"; same "S"; same "likelihood"; ("log-likelihood", "log_likelihood"); same "mahalanobis"]).
(** kalman/fading_memory.py 444-464. *)
Definition repr_FadingKalmanFilter : cls := ("FadingKalmanFilter object", [("dim_x", "x"); ("dim_z", "x"); same "dim_u"; same "x"; same "P"; same "F"; same "Q"; same "R"; same "H"; same "K"; same "y"; same "S"; same "B"; same "likelihood"; ("log-likelihood", "log_likelihood"); same "mahalanobis"; same "alpha"]).
(** kalman/information_filter.py 381-404. *)
Definition repr_InformationFilter : cls := ("InformationFilter object", [same "dim_x"; same "dim_z"; same "dim_u"; same "x"; same "P_inv"; same "x_prior"; same "P_inv_prior"; same "F"; same "_F_inv"; same "Q"; same "R_inv"; same "H"; same "K"; same "y"; same "z"; same "S"; same "B"; ("log-likelihood", "log_likelihood"); same "likelihood"; same "inv"]).
(** kalman/square_root.py 342-360. *)
Definition repr_SquareRootKalmanFilter : cls := ("SquareRootKalmanFilter object", [same "dim_x"; same "dim_z"; same "dim_u"; same "x"; same "P"; same "F"; same "Q"; same "R"; same "H"; same "K"; same "y"; same "S"; same "SI"; same "M"; same "B"]).
(** kalman/UKF.py 779-805. *)
Definition repr_UnscentedKalmanFilter : cls := ("UnscentedKalmanFilter object", [same "x"; same "P"; same "x_prior"; same "P_prior"; same "Q"; same "R"; same "S"; same "K"; same "y"; ("log-likelihood", "log_likelihood"); same "likelihood"; same "mahalanobis"; same "sigmas_f"; ("h", "sigmas_h"); same "Wm"; same "Wc"; same "residual_x"; same "residual_z"; same "msqrt"; same "hx"; same "fx"; same "x_mean"; same "z_mean"]).
(** kalman/sigma_points.py 196-208. *)
Definition repr_MerweScaledSigmaPoints : cls := ("MerweScaledSigmaPoints object", [same "n"; same "alpha"; same "beta"; same "kappa"; same "Wm"; same "Wc"; same "subtract"; same "sqrt"]).
(** kalman/sigma_points.py 373-383. *)
Definition repr_JulierSigmaPoints : cls := ("JulierSigmaPoints object", [same "n"; same "kappa"; same "Wm"; same "Wc"; same "subtract"; same "sqrt"]).
(** kalman/sigma_points.py 525-534. *)
Definition repr_SimplexSigmaPoints : cls := ("SimplexSigmaPoints object", [same "n"; same "alpha"; same "Wm"; same "Wc"; same "subtract"; same "sqrt"]).
(** kalman/CubatureKalmanFilter.py 430-445. *)
Definition repr_CubatureKalmanFilter : cls := ("CubatureKalmanFilter object", [same "dim_x"; same "dim_z"; ("dt", "_dt"); same "x"; same "P"; same "Q"; same "R"; same "K"; same "y"; ("log-likelihood", "log_likelihood"); same "likelihood"; same "mahalanobis"]).
(** kalman/ensemble_kalman_filter.py 292-309. *)
Definition repr_EnsembleKalmanFilter : cls := ("EnsembleKalmanFilter object", [same "dim_x"; same "dim_z"; same "dt"; same "x"; same "P"; same "x_prior"; same "P_prior"; same "Q"; same "R"; same "K"; same "S"; same "sigmas"; same "hx"; same "fx"]).
(** kalman/IMM.py 251-266. *)
Definition repr_IMMEstimator : cls := ("IMMEstimator object", [same "x"; same "P"; same "x_prior"; same "P_prior"; same "x_post"; same "P_post"; same "N"; same "mu"; same "M"; same "cbar"; same "likelihood"; same "omega"]).
(** kalman/mmae.py 214-221. *)
Definition repr_MMAEFilterBank : cls := ("MMAEFilterBank object", [same "dim_x"; same "x"; same "P"; ("log-p", "p")]).
(** kalman/fixed_lag_smoother.py 313-330. *)
Definition repr_FixedLagSmoother : cls := ("FixedLagSmoother object", [("dim_x", "x"); ("dim_z", "x"); same "N"; same "x"; same "x_s"; same "P"; same "F"; same "Q"; same "R"; same "H"; same "K"; same "y"; same "S"; same "B"]).
(** hinfinity/hinfinity_filter.py 276-291. *)
Definition repr_HInfinityFilter : cls := ("HInfinityFilter object", [same "dim_x"; same "dim_z"; same "dim_u"; ("gamma", "dim_u"); same "x"; same "P"; same "F"; same "Q"; same "V"; same "W"; same "K"; same "y"]).
(** gh/gh_filter.py 183-194. *)
Definition repr_GHFilterOrder : cls := ("GHFilterOrder object", [same "dt"; same "order"; same "x"; same "g"; same "h"; same "k"; same "y"; same "z"]).
(** gh/gh_filter.py 511-523. *)
Definition repr_GHFilter : cls := ("GHFilter object", [same "dt"; same "g"; same "h"; same "x"; same "dx"; same "x_prediction"; same "dx_prediction"; same "y"; same "z"]).
(** gh/gh_filter.py 839-854. *)
Definition repr_GHKFilter : cls := ("GHFilter object", [same "dt"; same "g"; same "h"; same "k"; same "x"; same "dx"; same "ddx"; same "x_prediction"; same "dx_prediction"; ("ddx_prediction", "dx_prediction"); same "y"; same "z"]).
(** leastsq/least_squares.py 207-215. *)
Definition repr_LeastSquaresFilter : cls := ("LeastSquaresFilter object", [same "dt"; same "sigma"; same "_order"; same "x"; same "K"]).
(** memory/fading_memory.py 147-156. *)
Definition repr_FadingMemoryFilter : cls := ("FadingMemoryFilter object", [same "dt"; same "order"; same "beta"; same "x"; same "P"; same "e"]).

(** repr_string (helpers.py 509-528): [name] is type(obj).__name__, [keys] is obj.__dir__(), [env] gives getattr(obj, key), or
    None if its type is called method or function.  No key is empty. *)
Definition repr_string (name : string) (keys : list string) (env : string -> option pval) (private : bool) : string :=
  let keys := filter (fun key => negb (substring 0 2 key =? "__")%string) keys in
  let keys := if private then keys else filter (fun key => negb (substring 0 1 key =? "_")%string) keys in
  let s := flat_map (fun key => match env key with Some val => [pretty key val] | None => [] end) keys in
  name ++ " object" ++ nl ++ String.concat nl s.

(** KalmanFilter.__repr__ (1269-1297) reads log_likelihood, likelihood and mahalanobis, in this order. *)
Section Print.
Variable o : nops.
Variables n m l : nat.
Variable lpdf : M o m 1 -> M o m 1 -> M o m m -> sc o.
Variable fmin : sc o.
Definition kf_print (s : kf o n m l) : kf o n m l :=
  let (_, s) := kf_log_likelihood lpdf s in
  let (_, s) := kf_likelihood lpdf fmin s in
  let (_, s) := kf_mahalanobis s in
  s.
End Print.
Arguments kf_print {o n m l} lpdf fmin s.

(** ExtendedKalmanFilter.__repr__ (EKF.py 412-428) and FadingKalmanFilter.__repr__ (fading_memory.py 444-464) read likelihood,
    log_likelihood and mahalanobis, in this order. *)
Definition ek_print {o : nops} {n m : nat} (lpdf : M o m 1 -> M o m m -> sc o) (fmin : sc o) (s : ek_st o n m) : ek_st o n m :=
  let (_, s) := ek_likelihood lpdf fmin s in
  let (_, s) := ek_log_likelihood lpdf s in
  let (_, s) := ek_mahalanobis s in
  s.
