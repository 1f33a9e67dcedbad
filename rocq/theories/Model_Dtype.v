(** * Arrays of integers.

    The other models compute with real (or floating-point) numbers throughout.  A NumPy array of integers behaves
    differently when it is written to: [a[i] = v] with a float [v] truncates [v] towards zero, an in-place operator
    ([a += b], [a /= b]) whose result is a float raises TypeError (numpy's UFuncTypeError) and leaves [a] alone, and
    scipy.ndimage.convolve returns an array of the type of its first argument, truncating what it computes.  Binding
    ([self.x = ...]) gives the array the type of the expression.  This file has the functions of /repo that write to an
    array supplied by the caller (or a copy of it), with the type of that array as part of the state.  beta, the matrices
    F, H, P, R, the gains and the likelihoods are floats. *)
From Coq Require Import List Arith Bool ZArith.
From Verif Require Import Ops Model_LSQ Model_DB Model_KF Model_Sqrt Model_MM.
Import ListNotations.
Set Implicit Arguments.
Unset Strict Implicit.
Local Open Scope np_scope.

Inductive dtype := Int | Float.
(** The type of the product of two arrays. *)
Definition dmul (a b : dtype) : dtype := match a, b with Int, Int => Int | _, _ => Float end.

Section Vectors.
Variable o : sops.
(** The float without its fractional part. *)
Variable trunc : sc o -> sc o.
(** What [a[i] = v] leaves in the array. *)
Definition store (t : dtype) (v : sc o) : sc o := match t with Int => trunc v | Float => v end.

(** FadingMemoryFilter.__init__ (memory/fading_memory.py 107-111): a scalar x0 goes into an array of zeros, an array is
    copied. *)
Inductive x0_arg := Scalar | Array (t : dtype).
Definition x0_dtype (a : x0_arg) : dtype := match a with Scalar => Float | Array t => t end.
(** update (162-194): order 0 binds self.x (168), orders 1 and 2 write into it (178-179, 192-194). *)
Definition fmf_dt_update (z : sc o) (ts : dtype * fmf o) : dtype * fmf o :=
  let (t, s) := ts in
  let s' := fmf_update z s in
  match m_order s with
  | 0 => (Float, s')
  | 1 => (t, mkFMF (m_dt s') (m_order s') (m_beta s') (store t (m_x0 s')) (store t (m_x1 s')) (m_x2 s') (m_P s') (m_e s'))
  | _ => (t, mkFMF (m_dt s') (m_order s') (m_beta s') (store t (m_x0 s')) (store t (m_x1 s')) (store t (m_x2 s')) (m_P s') (m_e s'))
  end.
Definition fmf_dt_run (zs : list (sc o)) (ts : dtype * fmf o) : dtype * fmf o :=
  fold_left (fun ts z => fmf_dt_update z ts) zs ts.

(** normalize (discrete_bayes/discrete_bayes.py 25-48), in place. *)
Definition db_dt_normalize (t : dtype) (pdf : list (sc o)) : res (list (sc o)) :=
  match t with Int => Err TypeError | Float => Ok (db_normalize pdf) end.
(** update (51-89). *)
Definition db_dt_update (tl tp : dtype) (likelihood prior : list (sc o)) : res (list (sc o)) :=
  rbind (bmul prior likelihood) (db_dt_normalize (dmul tp tl)).
(** predict (93-128) with mode='wrap'. *)
Definition db_dt_predict (t : dtype) (pdf : list (sc o)) (offset : Z) (kernel : list (sc o)) : list (sc o) :=
  map (store t) (db_predict pdf offset kernel true (s0 o)).
End Vectors.

Section Filters.
Variable o : nops.
Variables n m l : nat.

(** KalmanFilter.update_sequential (kalman_filter.py 754-824): [self.x += ...] (816). *)
Definition kf_dt_update_sequential {k} (linv : M o k k -> option (M o k k)) (start : nat)
    (z_i : M o k 1) (R_i : option (sm o k)) (H_i : option (M o k n)) (ts : dtype * kf o n m l) : (dtype * kf o n m l) * option exn :=
  let (t, s) := ts in
  match t, kf_update_sequential linv start z_i R_i H_i s with
  | Int, (s', None) => ((Int, set_kf_K (kf_K s') (set_kf_y (kf_y s') s)), Some TypeError)
  | _, (s', e) => ((t, s'), e)
  end.
(** The other methods bind x (473-475, 548, 587-589, 659, 747): an expression with a float array in it.  A missing measurement, an
    exception and the likelihood properties leave x alone. *)
Definition kf_binds_x (c : kf_call o n m l) (e : option exn) : bool :=
  match c, e with
  | CPredict _ _ _ _, _ | CPredictSS _ _, _ => true
  | CUpdate (Some _) _ _, None | CUpdateSS (Some _), _ | CUpdateCorr (Some _) _ _, None => true
  | _, _ => false
  end.
Definition kf_dt_step (c : kf_call o n m l) (ts : dtype * kf o n m l) : (dtype * kf o n m l) * option exn :=
  match c with
  | CUpdateSeq _ linv start z R H => kf_dt_update_sequential linv start z R H ts
  | _ => let (s', e) := kf_step c (snd ts) in ((if kf_binds_x c e then Float else fst ts, s'), e)
  end.
Definition kf_dt_run (cs : list (kf_call o n m l)) (ts : dtype * kf o n m l) : dtype * kf o n m l :=
  fold_left (fun ts c => fst (kf_dt_step c ts)) cs ts.

(** SquareRootKalmanFilter.update (square_root.py 171-224): [self.x += ...] (219), before P, z and the posterior are
    assigned. *)
Variable qr : forall p q : nat, M o p q -> M o p q.
Variable pinv : M o m m -> M o m m.
Definition sq_dt_update (z : option (M o m 1)) (R2 : option (sm o m)) (c : sq_cfg o n m l) (ts : dtype * sq_st o n m)
    : (dtype * sq_st o n m) * option exn :=
  let (t, s) := ts in
  let s' := sq_update qr pinv z R2 c s in
  match t, z with
  | Int, Some _ =>
      ((Int, mkSS (q_x s) (q_P12 s) (q_z s) (q_K s') (q_S12 s') (q_SI12 s') (q_y s') (q_M s')
               (q_x_prior s) (q_P12_prior s) (q_x_post s) (q_P12_post s)), Some TypeError)
  | _, _ => ((t, s'), None)
  end.
Definition sq_dt_predict (u : option (M o l 1)) (c : sq_cfg o n m l) (ts : dtype * sq_st o n m) : dtype * sq_st o n m :=
  (Float, sq_predict qr u c (snd ts)).
Definition sq_dt_step (cc : sq_cfg o n m l * sq_call o m l) (ts : dtype * sq_st o n m) : (dtype * sq_st o n m) * option exn :=
  match snd cc with
  | SPredict u => (sq_dt_predict u (fst cc) ts, None)
  | SUpdate z R2 => sq_dt_update z R2 (fst cc) ts
  end.
Definition sq_dt_run (cs : list (sq_cfg o n m l * sq_call o m l)) (ts : dtype * sq_st o n m) : dtype * sq_st o n m :=
  fold_left (fun ts c => fst (sq_dt_step c ts)) cs ts.
End Filters.

(** MMAEFilterBank (kalman/mmae.py): __init__ keeps np.asarray(p) (113), so a list or array of integers stays one. *)
Section Bank.
Variable o : nops.
Variable trunc : sc o -> sc o.
Variables n m l : nat.
Variable T : Type.
Variable D : filt o n m l T.
Variable N : nat.
(** The loop of update (181-183): [self.p[i] *= f.likelihood] reads an element, multiplies, and writes it back. *)
Fixpoint mmae_dt_update_all (t : dtype) (z : option (M o m 1)) (R : option (sm o m)) (H : option (M o m n)) (i : nat)
    (fs : list T) (p : M o 1 N) : list T * M o 1 N * option exn :=
  match fs with
  | [] => ([], p, None)
  | f :: r =>
      match f_update D z R H f with
      | (f, Some e) => (f :: r, p, Some e)
      | (f, None) =>
          let (L, f) := f_lik D f in
          let p := mfun 1 N (fun _ j => if j =? i then store trunc t (smul o (mget p 0 j) L) else mget p 0 j) in
          let '(r, p, e) := mmae_dt_update_all t z R H (S i) r p in
          (f :: r, p, e)
      end
  end.
(** update (158-210): [self.p /= sum(self.p)] (185) is an in-place true division; nothing after it runs if it raises. *)
Definition mmae_dt_update (t : dtype) (z : option (M o m 1)) (R : option (sm o m)) (H : option (M o m n)) (s : mmae o n m T N) :
    mmae o n m T N * option exn :=
  let H := match H with None => a_H s | Some _ => H end in
  match mmae_dt_update_all t z R H 0 (a_filters s) (a_p s), t with
  | (fs, p, Some e), _ =>
      (mkA fs p (a_H s) (a_z s) (a_x s) (a_P s) (a_x_prior s) (a_P_prior s) (a_x_post s) (a_P_post s), Some e)
  | (fs, p, None), Int =>
      (mkA fs p (a_H s) (a_z s) (a_x s) (a_P s) (a_x_prior s) (a_P_prior s) (a_x_post s) (a_P_post s), Some TypeError)
  | (fs, p, None), Float =>
      let p := mdivs p (vsum p) in
      let x := mix_x D fs (fun i => mget p 0 i) in
      let P := mmae_P D fs (fun i => mget p 0 i) x in
      (mkA fs p (a_H s) z x P (a_x_prior s) (a_P_prior s) x P, None)
  end.
End Bank.
