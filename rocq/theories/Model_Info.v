(** * filterpy/kalman/information_filter.py *)
From Coq Require Import List Arith Bool ZArith.
From Verif Require Import Ops.
Import ListNotations.
Set Implicit Arguments.
Unset Strict Implicit.
Local Open Scope np_scope.

Section InformationFilter.
Variable o : nops.
Variables n m l : nat.   (* dim_x, dim_z, dim_u *)

(** The attributes the user assigns and no method changes (145-175).
    [ic_B = None] is the initial [self.B = 0.]; [ic_F], [ic_Finv] are None for the
    initial [self._F = 0.], [self._F_inv = 0.] (147-148).  [ic_inv] is [self.inv].
    [ic_ll] is compute_log_likelihood.  [ic_lpdf y S] is
    filterpy.stats.logpdf(x=y, cov=S), which may raise; [ic_fmin] is
    sys.float_info.min. *)
Record if_cfg := mkIC {
  ic_Q : M o n n;
  ic_B : option (M o n l);
  ic_F : option (M o n n);
  ic_Finv : option (M o n n);
  ic_H : M o m n;
  ic_Rinv : M o m m;
  ic_inv : M o n n -> option (M o n n);
  ic_ll : bool;
  ic_lpdf : M o m 1 -> M o n n -> res (sc o);
  ic_fmin : sc o
}.

(** The attributes the methods change.  [i_K], [i_S] are None for the initial
    [0.] (157, 160).  Simplification: x is a (dim_x,1) column and z a (dim_z,1)
    column, so reshape_z (228) returns it unchanged. *)
Record if_st := mkIS {
  i_x : M o n 1;
  i_Pinv : M o n n;
  i_z : option (M o m 1);
  i_K : option (M o n m);
  i_y : M o m 1;
  i_S : option (M o n n);
  i_noinfo : bool;
  i_ll : sc o;
  i_lik : sc o;
  i_x_prior : M o n 1;
  i_Pinv_prior : M o n n;
  i_x_post : M o n 1;
  i_Pinv_post : M o n n
}.

(** InformationFilter.__init__ (130-175). *)
Definition if_cfg_init (inv : M o n n -> option (M o n n)) (ll : bool)
    (lpdf : M o m 1 -> M o n n -> res (sc o)) (fmin : sc o) : if_cfg :=
  mkIC (meye n) None None None (mzeros m n) (meye m) inv ll lpdf fmin.
Definition if_init (fmin : sc o) : if_st :=
  mkIS (mzeros n 1) (meye n) (Some (mzeros m 1)) None (mzeros m 1) None false
    (slog o fmin) fmin (mzeros n 1) (meye n) (mzeros n 1) (meye n).

(** The F setter (370-374): F is assigned before the inverse may raise. *)
Definition if_set_F (F : M o n n) (c : if_cfg) : if_cfg * option exn :=
  match ic_inv c F with
  | Some Fi => (mkIC (ic_Q c) (ic_B c) (Some F) (Some Fi) (ic_H c) (ic_Rinv c) (ic_inv c) (ic_ll c) (ic_lpdf c) (ic_fmin c), None)
  | None => (mkIC (ic_Q c) (ic_B c) (Some F) (ic_Finv c) (ic_H c) (ic_Rinv c) (ic_inv c) (ic_ll c) (ic_lpdf c) (ic_fmin c), Some LinAlgError)
  end.

(** The P property (376-379). *)
Definition if_P (c : if_cfg) (s : if_st) : option (M o n n) := ic_inv c (i_Pinv s).

(** InformationFilter.update (178-243). *)
Definition if_update (z : option (M o m 1)) (Rinv : option (sm o m)) (c : if_cfg) (s : if_st)
    : if_st * option exn :=
  match z with
  | None =>
      (mkIS (i_x s) (i_Pinv s) None (i_K s) (i_y s) (i_S s) (i_noinfo s) (i_ll s) (i_lik s)
         (i_x_prior s) (i_Pinv_prior s) (i_x s) (i_Pinv s), None)
  | Some z =>
      let R_inv := sm_or (ic_Rinv c) Rinv in
      let H := ic_H c in
      let P_inv := i_Pinv s in
      let x := i_x s in
      let P' := P_inv + (H^T @ R_inv) @ H in
      if i_noinfo s then
        let x' := P_inv @ x + (H^T @ R_inv) @ z in
        (mkIS x' P' (Some z) (i_K s) (i_y s) (i_S s) true (slog o (ic_fmin c)) (ic_fmin c)
           (i_x_prior s) (i_Pinv_prior s) x' P', None)
      else
        let y := z - H @ x in
        let S := P_inv + (H^T @ R_inv) @ H in
        match ic_inv c S with
        | None =>
            (mkIS x P_inv (i_z s) (i_K s) y (Some S) false (i_ll s) (i_lik s)
               (i_x_prior s) (i_Pinv_prior s) (i_x_post s) (i_Pinv_post s), Some LinAlgError)
        | Some SI =>
            let K := (SI @ H^T) @ R_inv in
            let x' := x + K @ y in
            match (if ic_ll c then rmap Some (ic_lpdf c y S) else Ok None) with
            | Err e =>
                (mkIS x' P' (Some z) (Some K) y (Some S) false (i_ll s) (i_lik s)
                   (i_x_prior s) (i_Pinv_prior s) (i_x_post s) (i_Pinv_post s), Some e)
            | Ok v =>
                let ll := match v with Some v => v | None => i_ll s end in
                let lik := match v with
                           | Some v => if seqb o (sexp o v) (s0 o) then ic_fmin c else sexp o v
                           | None => i_lik s end in
                (mkIS x' P' (Some z) (Some K) y (Some S) false ll lik
                   (i_x_prior s) (i_Pinv_prior s) x' P', None)
            end
        end
  end.

(** [dot(self.B, u)] added to a column (272). [None]: B = 0. or u = 0.  *)
Definition add_control (x : M o n 1) (B : option (M o n l)) (u : option (M o l 1)) : M o n 1 :=
  match B, u with
  | Some B, Some u => x + B @ u
  | _, _ => x + mzeros n 1
  end.

(** InformationFilter.predict (245-289).  The bare excepts (260, 263) catch the
    failing inverse; P_inv is not changed in the else branch (279-289). *)
Definition if_predict (u : option (M o l 1)) (c : if_cfg) (s : if_st) : if_st * option exn :=
  match ic_F c, ic_Finv c with
  | Some F, Some Fi =>
      let A := (Fi^T @ i_Pinv s) @ Fi in
      match ic_inv c A with
      | Some AI =>
          let x := if i_noinfo s then
                     match ic_inv c (i_Pinv s) with
                     | Some Pi => Pi @ i_x s
                     | None => mscale (s0 o) (i_x s)
                     end
                   else i_x s in
          let x := add_control (F @ x) (ic_B c) u in
          match ic_inv c (AI + ic_Q c) with
          | None => (mkIS x (i_Pinv s) (i_z s) (i_K s) (i_y s) (i_S s) false (i_ll s) (i_lik s)
                       (i_x_prior s) (i_Pinv_prior s) (i_x_post s) (i_Pinv_post s), Some LinAlgError)
          | Some Pi => (mkIS x Pi (i_z s) (i_K s) (i_y s) (i_S s) false (i_ll s) (i_lik s)
                          x Pi (i_x_post s) (i_Pinv_post s), None)
          end
      | None =>
          let fail := (mkIS (i_x s) (i_Pinv s) (i_z s) (i_K s) (i_y s) (i_S s) true (i_ll s) (i_lik s)
                         (i_x_prior s) (i_Pinv_prior s) (i_x_post s) (i_Pinv_post s), Some LinAlgError) in
          let I_PF := meye n - i_Pinv s @ Fi in
          match ic_inv c (F^T) with
          | None => fail
          | Some FTI =>
              let FTIX := FTI @ i_x s in
              match ic_inv c (A + ic_Q c) with
              | None => fail
              | Some AQI =>
                  let x := FTI @ ((I_PF @ AQI) @ FTIX) in
                  (mkIS x (i_Pinv s) (i_z s) (i_K s) (i_y s) (i_S s) true (i_ll s) (i_lik s)
                     x AQI (i_x_post s) (i_Pinv_post s), None)
              end
          end
      end
  | _, _ => (s, Some AttributeError)
  end.

(** InformationFilter.batch_filter (291-332): raises. *)
Definition if_batch_filter (s : if_st) : if_st * option exn := (s, Some NotImplementedError).

(** A history: the attributes may be reassigned between calls. *)
Inductive if_call :=
| IPredict (u : option (M o l 1))
| IUpdate (z : option (M o m 1)) (Rinv : option (sm o m)).
Definition if_step (cc : if_cfg * if_call) (s : if_st) : if_st * option exn :=
  match snd cc with
  | IPredict u => if_predict u (fst cc) s
  | IUpdate z Rinv => if_update z Rinv (fst cc) s
  end.
Definition if_run (cs : list (if_cfg * if_call)) (s : if_st) : if_st :=
  fold_left (fun s c => fst (if_step c s)) cs s.
End InformationFilter.

(** The dimension checks (132-137). *)
Definition if_check_dims (dim_x dim_z dim_u : Z) : option exn :=
  if (dim_x <? 1)%Z then Some ValueError
  else if (dim_z <? 1)%Z then Some ValueError
  else if (dim_u <? 0)%Z then Some ValueError
  else None.

Arguments IPredict {o m l} u.
Arguments IUpdate {o m l} z Rinv.
