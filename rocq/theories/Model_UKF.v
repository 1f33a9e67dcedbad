(** * filterpy/kalman: sigma_points.py, unscented_transform.py, UKF.py

    One-dimensional arrays of length n are modelled as 1 x n matrices; a set of k sigma points in
    dimension n is a k x n matrix, one point per row, as in the code.  [cholesky]/[sqrt_method] is
    a function that may raise LinAlgError ([None]). *)
From Coq Require Import List Arith Bool.
From Verif Require Import Ops.
Import ListNotations.
Set Implicit Arguments.
Unset Strict Implicit.
Local Open Scope nat_scope.
Local Open Scope np_scope.

Section Points.
Variable o : nops.
Notation "# k" := (snat o k) (at level 5, k at level 0).

(** A[k], a row. *)
Definition mrow {p q} (A : M o p q) (k : nat) : M o 1 q := mslice A k 0 1 q.
Definition mopp {p q} (A : M o p q) : M o p q := mmap (sopp o) A.

(** The sigma-point objects as the filter uses them: sigma_points(x, P), Wm, Wc, with k points.
    The size of x is free, so that the check on it can fail. *)
Record points (n k : nat) := mkPts {
  pt_sigmas : forall m, M o 1 m -> sm o n -> res (M o k n);
  pt_Wm : M o 1 k;
  pt_Wc : M o 1 k }.

(** np.full(k, c) with the first entry replaced. *)
Definition weights (k : nat) (w0 c : sc o) : M o 1 k :=
  mwrite (mfun 1 k (fun _ _ => c)) 0 0 (mfun 1 1 (fun _ _ => w0)).

(** The common part of MerweScaledSigmaPoints.sigma_points (152-177) and
    JulierSigmaPoints.sigma_points (323-355): c is the factor of P under the square root.  P may be
    a scalar (np.eye(n)*P). *)
Definition sym_points (n : nat) (c : sc o) (sqrt : M o n n -> option (M o n n)) (subtract : M o 1 n -> M o 1 n -> M o 1 n)
    (m : nat) (x : M o 1 m) (P : sm o n) : res (M o (S (n + n)) n) :=
  if negb (n =? m) then Err ValueError else
  let x : M o 1 n := mslice x 0 0 1 n in
  let P := sm_or (mzeros n n) (Some P) in
  match sqrt (mscale c P) with
  | None => Err LinAlgError
  | Some U =>
      Ok (fold_left (fun s k =>
            let s := mwrite s (k + 1) 0 (subtract x (mopp (mrow U k))) in
            mwrite s (n + k + 1) 0 (subtract x (mrow U k)))
          (seq 0 n) (mwrite (mzeros (S (n + n)) n) 0 0 x))
  end.

(** lambda_ = alpha**2 * (n + kappa) - n *)
Definition merwe_lambda (n : nat) (alpha kappa : sc o) : sc o :=
  ssub o (smul o (spow o alpha 2) (sadd o #n kappa)) #n.

(** MerweScaledSigmaPoints (95-192).  _compute_weights divides by n + lambda_. *)
Definition merwe_points (n : nat) (alpha beta kappa : sc o) (sqrt : M o n n -> option (M o n n))
    (subtract : M o 1 n -> M o 1 n -> M o 1 n) : points n (S (n + n)) :=
  let lam := merwe_lambda n alpha kappa in
  let c := sdiv o (sdiv o (s1 o) #2) (sadd o #n lam) in
  let w := sdiv o lam (sadd o #n lam) in
  mkPts (fun m x P => sym_points (sadd o lam #n) sqrt subtract x P)
    (weights (S (n + n)) w c)
    (weights (S (n + n)) (sadd o w (sadd o (ssub o (s1 o) (spow o alpha 2)) beta)) c).

(** JulierSigmaPoints (267-370). *)
Definition julier_points (n : nat) (kappa : sc o) (sqrt : M o n n -> option (M o n n))
    (subtract : M o 1 n -> M o 1 n -> M o 1 n) : points n (S (n + n)) :=
  let W := weights (S (n + n)) (sdiv o kappa (sadd o #n kappa)) (sdiv o (sdiv o (s1 o) #2) (sadd o #n kappa)) in
  mkPts (fun m x P => sym_points (sadd o #n kappa) sqrt subtract x P) W W.

(** The loop of SimplexSigmaPoints.sigma_points (500-506): Istar after dimension d (d = 1: the
    initial 1 x 2 array). *)
Fixpoint istar (lam : sc o) (d : nat) : M o d (S d) :=
  match d with
  | 0 => mzeros 0 1
  | S d' =>
      let prev := istar lam d' in
      let d := S d' in
      if d' =? 0 then
        let a := ssqrt o (smul o #2 lam) in
        mfun (S d') (S (S d')) (fun _ j => if j =? 0 then sdiv o (sopp o (s1 o)) a else sdiv o (s1 o) a)
      else
        let a := ssqrt o (smul o (smul o lam #d) (sadd o #d (s1 o))) in
        mfun (S d') (S (S d')) (fun i j =>
          if i =? d' then (if j =? d then sdiv o (sopp o #d) a else sdiv o (s1 o) a)
          else if j =? d then s0 o else mget prev i j)
  end.

(** SimplexSigmaPoints.sigma_points (458-513), n >= 1.  [subtract] is applied to the column x and
    the n x (n+1) array; the default broadcasts x over the columns. *)
Definition simplex_sub (n : nat) (x : M o n 1) (A : M o n (S n)) : M o n (S n) :=
  mfun n (S n) (fun i j => ssub o (mget x i 0) (mget A i j)).
Definition simplex_sigmas (n : nat) (sqrt : M o n n -> option (M o n n)) (subtract : M o n 1 -> M o n (S n) -> M o n (S n))
    (m : nat) (x : M o 1 m) (P : sm o n) : res (M o (S n) n) :=
  if negb (n =? m) then Err ValueError else
  let x : M o n 1 := mtr (mslice x 0 0 1 n) in
  let P := sm_or (mzeros n n) (Some P) in
  match sqrt P with
  | None => Err LinAlgError
  | Some U =>
      let lam := sdiv o #n (sadd o #n (s1 o)) in
      let I := mscale (ssqrt o #n) (istar lam n) in
      Ok (mtr (subtract x (mopp (U^T @ I))))
  end.
Definition simplex_points (n : nat) (sqrt : M o n n -> option (M o n n)) (subtract : M o n 1 -> M o n (S n) -> M o n (S n)) : points n (S n) :=
  let W := mfun 1 (S n) (fun _ _ => sdiv o (s1 o) (sadd o #n (s1 o))) in
  mkPts (fun m x P => simplex_sigmas sqrt subtract x P) W W.

(** np.diag of a 1-D array. *)
Definition np_diag {k} (w : M o 1 k) : M o k k := mfun k k (fun i j => if i =? j then mget w 0 i else s0 o).
(** sigmas - x[np.newaxis, :] *)
Definition sub_row {k n} (A : M o k n) (x : M o 1 n) : M o k n := mfun k n (fun i j => ssub o (mget A i j) (mget x 0 j)).

(** unscented_transform (unscented_transform.py:22-128); [residual_fn = None] stands for None and for
    np.subtract. *)
Definition unscented_transform {k n} (sigmas : M o k n) (Wm Wc : M o 1 k) (noise_cov : option (M o n n))
    (mean_fn : option (M o k n -> M o 1 k -> M o 1 n)) (residual_fn : option (M o 1 n -> M o 1 n -> M o 1 n))
    : M o 1 n * M o n n :=
  let x := match mean_fn with None => Wm @ sigmas | Some f => f sigmas Wm end in
  let P := match residual_fn with
           | None => let y := sub_row sigmas x in y^T @ (np_diag Wc @ y)
           | Some r => fold_left (fun P i => let y := r (mrow sigmas i) x in P + mscale (mget Wc 0 i) (y^T @ y))
                         (seq 0 k) (mzeros n n)
           end in
  (x, match noise_cov with None => P | Some Q => P + Q end).
End Points.

Section UKF.
Variable o : nops.
Variables n m k : nat.   (* dim_x, dim_z, number of sigma points *)

(** Attributes no method changes.  The residuals: [None] is np.subtract; [state_add] None is np.add. *)
Record uk_cfg := mkUC {
  uc_Q : M o n n;
  uc_R : M o m m;
  uc_dt : sc o;
  uc_points : points o n k;
  uc_Wm : M o 1 k;
  uc_Wc : M o 1 k;
  uc_hx : M o 1 n -> M o 1 m;
  uc_fx : M o 1 n -> sc o -> M o 1 n;
  uc_x_mean : option (M o k n -> M o 1 k -> M o 1 n);
  uc_z_mean : option (M o k m -> M o 1 k -> M o 1 m);
  uc_residual_x : option (M o 1 n -> M o 1 n -> M o 1 n);
  uc_residual_z : option (M o 1 m -> M o 1 m -> M o 1 m);
  uc_state_add : option (M o 1 n -> M o 1 n -> M o 1 n);
  uc_inv : M o m m -> option (M o m m)
}.
(** Attributes the methods change (UKF.py:297-362).  [u_z = None]: the array of Nones. *)
Record uk_st := mkUS {
  u_x : M o 1 n;
  u_P : M o n n;
  u_sigmas_f : M o k n;
  u_sigmas_h : M o k m;
  u_K : M o n m;
  u_y : M o 1 m;
  u_z : option (M o 1 m);
  u_S : M o m m;
  u_SI : M o m m;
  u_x_prior : M o 1 n;
  u_P_prior : M o n n;
  u_x_post : M o 1 n;
  u_P_post : M o n n;
  u_loglik : option (sc o);
  u_lik : option (sc o);
  u_mahal : option (sc o)
}.

(** UnscentedKalmanFilter.__init__ (284-362): the state. *)
Definition uk_init (fmin : sc o) : uk_st :=
  mkUS (mzeros 1 n) (meye n) (mzeros k n) (mzeros k m) (mzeros n m) (mzeros 1 m) None (mzeros m m) (mzeros m m)
    (mzeros 1 n) (meye n) (mzeros 1 n) (meye n) (Some (slog o fmin)) (Some fmin) None.
(** ... and the configuration: Wm, Wc are the points object's. *)
Definition uk_config (Q : M o n n) (R : M o m m) dt hx fx (points : points o n k) x_mean z_mean residual_x residual_z state_add inv : uk_cfg :=
  mkUC Q R dt points (pt_Wm points) (pt_Wc points) hx fx x_mean z_mean residual_x residual_z state_add inv.

Definition resid {p} (r : option (M o 1 p -> M o 1 p -> M o 1 p)) : M o 1 p -> M o 1 p -> M o 1 p := opt_or msub r.

(** for i, s in enumerate(sigmas): out[i] = f(s) *)
Definition map_rows {p q} (f : M o 1 p -> M o 1 q) (A : M o k p) (out : M o k q) : M o k q :=
  fold_left (fun out i => mwrite out i 0 (f (mrow A i))) (seq 0 k) out.

(** compute_process_sigmas (506-522) as an expression for the new sigmas_f. *)
Definition uk_process_sigmas (dt : sc o) (fx : option (M o 1 n -> sc o -> M o 1 n)) (c : uk_cfg) (s : uk_st) : res (M o k n) :=
  match pt_sigmas (uc_points c) (u_x s) (Mat (u_P s)) with
  | Err e => Err e
  | Ok sig => Ok (map_rows (fun x => opt_or (uc_fx c) fx x dt) sig (u_sigmas_f s))
  end.

(** predict (364-411); the UT argument is the default.  The sigma points are computed again from the
    prediction; if that raises, x, P and sigmas_f are already assigned, x_prior and P_prior are not. *)
Definition uk_predict (dt : option (sc o)) (fx : option (M o 1 n -> sc o -> M o 1 n)) (c : uk_cfg) (s : uk_st) : uk_st * option exn :=
  match uk_process_sigmas (opt_or (uc_dt c) dt) fx c s with
  | Err e => (s, Some e)
  | Ok sf =>
      let (x, P) := unscented_transform sf (uc_Wm c) (uc_Wc c) (Some (uc_Q c)) (uc_x_mean c) (uc_residual_x c) in
      match pt_sigmas (uc_points c) x (Mat P) with
      | Err e => (mkUS x P sf (u_sigmas_h s) (u_K s) (u_y s) (u_z s) (u_S s) (u_SI s) (u_x_prior s) (u_P_prior s)
                    (u_x_post s) (u_P_post s) (u_loglik s) (u_lik s) (u_mahal s), Some e)
      | Ok sf' => (mkUS x P sf' (u_sigmas_h s) (u_K s) (u_y s) (u_z s) (u_S s) (u_SI s) x P
                    (u_x_post s) (u_P_post s) (u_loglik s) (u_lik s) (u_mahal s), None)
      end
  end.

(** cross_variance (493-504). *)
Definition uk_cross_variance (c : uk_cfg) (x : M o 1 n) (z : M o 1 m) (sf : M o k n) (sh : M o k m) : M o n m :=
  fold_left (fun Pxz i =>
      Pxz + mscale (mget (uc_Wc c) 0 i) ((resid (uc_residual_x c) (mrow sf i) x)^T @ resid (uc_residual_z c) (mrow sh i) z))
    (seq 0 k) (mzeros n m).

(** update (413-491); the UT argument is the default; [hx] returns arrays of dim_z entries (a plain
    scalar from hx makes np.atleast_2d build a 1 x k array: not modelled). *)
Definition uk_update (z : option (M o 1 m)) (R : option (sm o m)) (hx : option (M o 1 n -> M o 1 m)) (c : uk_cfg) (s : uk_st)
    : uk_st * option exn :=
  match z with
  | None => (mkUS (u_x s) (u_P s) (u_sigmas_f s) (u_sigmas_h s) (u_K s) (u_y s) None (u_S s) (u_SI s) (u_x_prior s) (u_P_prior s)
               (u_x s) (u_P s) (u_loglik s) (u_lik s) (u_mahal s), None)
  | Some z =>
      let R := sm_or (uc_R c) R in
      let sh := map_rows (opt_or (uc_hx c) hx) (u_sigmas_f s) (mzeros k m) in
      let (zp, S) := unscented_transform sh (uc_Wm c) (uc_Wc c) (Some R) (uc_z_mean c) (uc_residual_z c) in
      match uc_inv c S with
      | None => (mkUS (u_x s) (u_P s) (u_sigmas_f s) sh (u_K s) (u_y s) (u_z s) S (u_SI s) (u_x_prior s) (u_P_prior s)
                   (u_x_post s) (u_P_post s) (u_loglik s) (u_lik s) (u_mahal s), Some LinAlgError)
      | Some SI =>
          let Pxz := uk_cross_variance c (u_x s) zp (u_sigmas_f s) sh in
          let K := Pxz @ SI in
          let y := resid (uc_residual_z c) z zp in
          let x := opt_or madd (uc_state_add c) (u_x s) (K @ y^T)^T in
          let P := u_P s - K @ (S @ K^T) in
          (mkUS x P (u_sigmas_f s) sh K y (Some z) S SI (u_x_prior s) (u_P_prior s) x P None None None, None)
      end
  end.

(** Calls and histories.  A run goes on after an exception (the caller caught it). *)
Inductive uk_call :=
| UPredict (dt : option (sc o)) (fx : option (M o 1 n -> sc o -> M o 1 n))
| UUpdate (z : option (M o 1 m)) (R : option (sm o m)) (hx : option (M o 1 n -> M o 1 m)).
Definition uk_step (c : uk_cfg) (a : uk_call) (s : uk_st) : uk_st * option exn :=
  match a with UPredict dt fx => uk_predict dt fx c s | UUpdate z R hx => uk_update z R hx c s end.

(** The loop of batch_filter (622-630): one predict and one update per measurement; zip stops at the shortest
    list. *)
Fixpoint uk_batch (zs : list (option (M o 1 m))) (Rs : list (sm o m)) (dts : list (sc o)) (c : uk_cfg) (s : uk_st)
    : uk_st * res (list (M o 1 n * M o n n)) :=
  match zs, Rs, dts with
  | z :: zs, r :: Rs, dt :: dts =>
      match uk_predict (Some dt) None c s with
      | (s, Some e) => (s, Err e)
      | (s, None) =>
          match uk_update z (Some r) None c s with
          | (s, Some e) => (s, Err e)
          | (s, None) => let (s', l) := uk_batch zs Rs dts c s in (s', rmap (cons (u_x s, u_P s)) l)
          end
      end
  | _, _, _ => (s, Ok [])
  end.

(** batch_filter (524-632).  zs[0] of an empty list is an IndexError (593; only TypeError is caught).  The first
    measurement alone is checked (598-605): None is not a scalar and has neither ndim nor a length.
    The default lists are the filter's own R and dt repeated.  The output arrays have len(zs) rows of zeros (615-620), the
    loop fills as many as the shortest list has.  Elements of zs are dim_z vectors or None; other shapes, UT and
    saver are not modelled, nor what becomes of the arrays when the loop raises (they are not returned). *)
Definition uk_batch_check (zs : list (option (M o 1 m))) : option exn :=
  match zs with
  | [] => Some IndexError
  | None :: _ => Some (if (m =? 1)%nat then AttributeError else TypeError)
  | Some _ :: _ => None
  end.
Definition uk_batch_filter (zs : list (option (M o 1 m))) (Rs : option (list (sm o m))) (dts : option (list (sc o))) (c : uk_cfg) (s : uk_st)
    : uk_st * res (list (M o 1 n * M o n n)) :=
  match uk_batch_check zs with
  | Some e => (s, Err e)
  | None =>
      let z_n := length zs in
      let Rs := opt_or (repeat (Mat (uc_R c)) z_n) Rs in
      let dts := opt_or (repeat (uc_dt c) z_n) dts in
      let (s', l) := uk_batch zs Rs dts c s in
      (s', rmap (fun l => l ++ repeat (mzeros 1 n, mzeros n n) (z_n - length l)) l)
  end.

(** One step of rts_smoother (708-735), from the filtered (x, P) at step k and the smoothed pair at k+1.
    xs[k] and Xs[k] are equal when step k is reached.  [inv] is self.inv on n x n arrays. *)
Definition uk_rts_step (inv : M o n n -> option (M o n n)) (dt : sc o) (c : uk_cfg) (xP next : M o 1 n * M o n n)
    : res (M o 1 n * M o n n * M o n n) :=
  let (x, P) := xP in
  match pt_sigmas (uc_points c) x (Mat P) with
  | Err e => Err e
  | Ok sig =>
      let sf := map_rows (fun x => uc_fx c x dt) sig (mzeros k n) in
      let (xb, Pb) := unscented_transform sf (uc_Wm c) (uc_Wc c) (Some (uc_Q c)) (uc_x_mean c) (uc_residual_x c) in
      let Pxb := fold_left (fun Pxb i => Pxb + mscale (mget (uc_Wc c) 0 i)
                    ((resid (uc_residual_x c) (mrow sig i) x)^T @ resid (uc_residual_x c) (mrow sf i) xb)) (seq 0 k) (mzeros n n) in
      match inv Pb with
      | None => Err LinAlgError
      | Some PbI =>
          let K := Pxb @ PbI in
          Ok (x + (K @ (resid (uc_residual_x c) (fst next) xb)^T)^T, P + (K @ (snd next - Pb)) @ K^T, K)
      end
  end.
(** rts_smoother (634-739); the lists have equal lengths (else ValueError; [Qs] is accepted and ignored).
    The last entry is returned unchanged with gain 0. *)
Fixpoint uk_rts (inv : M o n n -> option (M o n n)) (dts : list (sc o)) (c : uk_cfg) (XPs : list (M o 1 n * M o n n))
    : res (list (M o 1 n * M o n n * M o n n)) :=
  match XPs with
  | [] => Ok []
  | xP :: rest =>
      match uk_rts inv (tl dts) c rest with
      | Err e => Err e
      | Ok [] => Ok [(xP, mzeros n n)]
      | Ok ((xn, Pn, Kn) :: t) =>
          match uk_rts_step inv (hd (uc_dt c) dts) c xP (xn, Pn) with
          | Err e => Err e
          | Ok r => Ok (r :: (xn, Pn, Kn) :: t)
          end
      end
  end.
Definition uk_rts_smoother (inv : M o n n -> option (M o n n)) (Xs : list (M o 1 n)) (Ps : list (M o n n)) (Qs : option (list (M o n n)))
    (dts : option (list (sc o))) (c : uk_cfg) : res (list (M o 1 n * M o n n * M o n n)) :=
  if negb (length Xs =? length Ps) then Err ValueError else
  uk_rts inv (opt_or (map (fun _ => uc_dt c) Xs) dts) c (combine Xs Ps).

(** The cached properties (UKF.py 741-777).  [lpdf y S] is filterpy.stats.logpdf(x=y, cov=S). *)
Section Likelihood.
Variable lpdf : M o 1 m -> M o m m -> sc o.
Variable fmin : sc o.
Definition uk_log_likelihood (s : uk_st) : sc o * uk_st :=
  match u_loglik s with
  | Some v => (v, s)
  | None => let v := lpdf (u_y s) (u_S s) in
      (v, mkUS (u_x s) (u_P s) (u_sigmas_f s) (u_sigmas_h s) (u_K s) (u_y s) (u_z s) (u_S s) (u_SI s) (u_x_prior s) (u_P_prior s) (u_x_post s) (u_P_post s) (Some v) (u_lik s) (u_mahal s))
  end.
Definition uk_likelihood (s : uk_st) : sc o * uk_st :=
  match u_lik s with
  | Some v => (v, s)
  | None =>
      let (ll, s) := uk_log_likelihood s in
      let v := if seqb o (sexp o ll) (s0 o) then fmin else sexp o ll in
      (v, mkUS (u_x s) (u_P s) (u_sigmas_f s) (u_sigmas_h s) (u_K s) (u_y s) (u_z s) (u_S s) (u_SI s) (u_x_prior s) (u_P_prior s) (u_x_post s) (u_P_post s) (u_loglik s) (Some v) (u_mahal s))
  end.
Definition uk_mahalanobis (s : uk_st) : sc o * uk_st :=
  match u_mahal s with
  | Some v => (v, s)
  | None => let v := ssqrt o (mget ((u_y s @ u_SI s) @ (u_y s)^T) 0 0) in
      (v, mkUS (u_x s) (u_P s) (u_sigmas_f s) (u_sigmas_h s) (u_K s) (u_y s) (u_z s) (u_S s) (u_SI s) (u_x_prior s) (u_P_prior s) (u_x_post s) (u_P_post s) (u_loglik s) (u_lik s) (Some v))
  end.
End Likelihood.
End UKF.
