(** * Banks of filters: filterpy/kalman/IMM.py and filterpy/kalman/mmae.py

    Both classes work on any objects with attributes x, P, likelihood and methods predict, update.  [filt] lists what
    they use; T is the type of filter objects (a sum type for a mixed bank).  x is an n x 1 array. *)
From Coq Require Import List Arith Bool.
From Verif Require Import Ops Model_KF.
Import ListNotations.
Set Implicit Arguments.
Unset Strict Implicit.
Local Open Scope nat_scope.
Local Open Scope np_scope.

(** What a bank uses of a filter: f.x, f.P; f.x = x; f.P = P (IMM 217-218); f.predict(u); f.update(z, R, H)
    (IMM passes z only); f.likelihood (which KalmanFilter caches, hence the new object). *)
Record filt (o : nops) (n m l : nat) (T : Type) := mkF {
  f_x : T -> M o n 1;
  f_P : T -> M o n n;
  f_put : M o n 1 -> M o n n -> T -> T;
  f_predict : option (M o l 1) -> T -> T * option exn;
  f_update : option (M o m 1) -> option (sm o m) -> option (M o m n) -> T -> T * option exn;
  f_lik : T -> sc o * T }.

(** KalmanFilter as such an object. *)
Definition kf_filt (o : nops) (n m l : nat) (lpdf : M o m 1 -> M o m 1 -> M o m m -> sc o) (fmin : sc o) : filt o n m l (kf o n m l) :=
  mkF (@kf_x o n m l) (@kf_P o n m l) (fun x P f => set_kf_P P (set_kf_x x f))
    (fun u f => (kf_predict u None None None f, None)) (@kf_update o n m l) (kf_likelihood lpdf fmin).

Section Bank.
Variable o : nops.
Variables n m l : nat.
Variable T : Type.
Variable D : filt o n m l T.

(** x += f.x * w over the filters (IMM 204-206, 233-234). *)
Definition mix_x (fs : list T) (w : nat -> sc o) : M o n 1 :=
  fold_left (fun a p => a + mscale (w (snd p)) (f_x D (fst p))) (combine fs (seq 0 (length fs))) (mzeros n 1).
(** P += w * (outer(y, y) + f.P) over the filters, y = f.x - x (IMM 209-212, 237-239). *)
Definition mix_P (fs : list T) (w : nat -> sc o) (x : M o n 1) : M o n n :=
  fold_left (fun a p => let y := f_x D (fst p) - x in a + mscale (w (snd p)) (y @ y^T + f_P D (fst p)))
    (combine fs (seq 0 (length fs))) (mzeros n n).
(** np.sum of a vector, from the first entry on (numpy's blockwise order is not modelled). *)
Definition vsum {N : nat} (v : M o 1 N) : sc o := fold_left (fun a i => sadd o a (mget v 0 i)) (seq 0 N) (s0 o).

Section IMM.
Variable N : nat.   (* number of filters *)
Variable Mt : M o N N.   (* self.M *)

Record imm := mkI {
  i_filters : list T;
  i_mu : M o 1 N;
  i_cbar : M o 1 N;
  i_omega : M o N N;
  i_lik : list (sc o);
  i_x : M o n 1;
  i_P : M o n n;
  i_x_prior : M o n 1;
  i_P_prior : M o n n;
  i_x_post : M o n 1;
  i_P_post : M o n n }.

(** _compute_mixing_probabilities (241-249). *)
Definition imm_cbar (mu : M o 1 N) : M o 1 N := mu @ Mt.
Definition imm_omega (mu cbar : M o 1 N) : M o N N :=
  mfun N N (fun i j => sdiv o (smul o (mget Mt i j) (mget mu 0 i)) (mget cbar 0 j)).

(** __init__ (132-160) after the checks of [imm_check]. *)
Definition imm_init (fs : list T) (mu : M o 1 N) : imm :=
  let mu := mdivs mu (vsum mu) in
  let cbar := imm_cbar mu in
  let x := mix_x fs (fun i => mget mu 0 i) in
  let P := mix_P fs (fun i => mget mu 0 i) x in
  mkI fs mu cbar (imm_omega mu cbar) (repeat (s0 o) N) x P x P x P.

(** The loop of update (174-176): a filter that raises stops it. *)
Fixpoint imm_update_all (z : option (M o m 1)) (i : nat) (fs : list T) (lik : list (sc o)) : list T * list (sc o) * option exn :=
  match fs with
  | [] => ([], lik, None)
  | f :: r =>
      match f_update D z None None f with
      | (f, Some e) => (f :: r, lik, Some e)
      | (f, None) =>
          let (L, f) := f_lik D f in
          let '(r, lik, e) := imm_update_all z (S i) r (set_nth lik i L) in
          (f :: r, lik, e)
      end
  end.
(** update (162-187). *)
Definition imm_update (z : option (M o m 1)) (s : imm) : imm * option exn :=
  match imm_update_all z 0 (i_filters s) (i_lik s) with
  | (fs, lik, Some e) =>
      (mkI fs (i_mu s) (i_cbar s) (i_omega s) lik (i_x s) (i_P s) (i_x_prior s) (i_P_prior s) (i_x_post s) (i_P_post s), Some e)
  | (fs, lik, None) =>
      let mu := mfun 1 N (fun _ j => smul o (mget (i_cbar s) 0 j) (nth j lik (s0 o))) in
      let mu := mdivs mu (vsum mu) in
      let cbar := imm_cbar mu in
      let x := mix_x fs (fun i => mget mu 0 i) in
      let P := mix_P fs (fun i => mget mu 0 i) x in
      (mkI fs mu cbar (imm_omega mu cbar) lik x P (i_x_prior s) (i_P_prior s) x P, None)
  end.

(** The second loop of predict (215-219). *)
Fixpoint imm_predict_all (u : option (M o l 1)) (fs : list T) (xP : list (M o n 1 * M o n n)) : list T * option exn :=
  match fs, xP with
  | f :: r, (x, P) :: q =>
      match f_predict D u (f_put D x P f) with
      | (f, Some e) => (f :: r, Some e)
      | (f, None) => let (r, e) := imm_predict_all u r q in (f :: r, e)
      end
  | _, _ => (fs, None)
  end.
(** The mixed initial conditions of filter j (200-213). *)
Definition imm_mixed (fs : list T) (omega : M o N N) (j : nat) : M o n 1 * M o n n :=
  let w := fun i => mget omega i j in
  let x := mix_x fs w in (x, mix_P fs w x).
(** predict (189-224). *)
Definition imm_predict (u : option (M o l 1)) (s : imm) : imm * option exn :=
  match imm_predict_all u (i_filters s) (map (imm_mixed (i_filters s) (i_omega s)) (seq 0 N)) with
  | (fs, Some e) =>
      (mkI fs (i_mu s) (i_cbar s) (i_omega s) (i_lik s) (i_x s) (i_P s) (i_x_prior s) (i_P_prior s) (i_x_post s) (i_P_post s), Some e)
  | (fs, None) =>
      let x := mix_x fs (fun i => mget (i_mu s) 0 i) in
      let P := mix_P fs (fun i => mget (i_mu s) 0 i) x in
      (mkI fs (i_mu s) (i_cbar s) (i_omega s) (i_lik s) x P x P (i_x_post s) (i_P_post s), None)
  end.

Inductive imm_call := IPredict (u : option (M o l 1)) | IUpdate (z : option (M o m 1)).
Definition imm_step (c : imm_call) (s : imm) : imm * option exn :=
  match c with IPredict u => imm_predict u s | IUpdate z => imm_update z s end.
(** A program that catches what the calls raise and carries on. *)
Definition imm_run (cs : list imm_call) (s : imm) : imm := fold_left (fun s c => fst (imm_step c s)) cs s.
End IMM.

Section MMAE.
Variable N : nat.
(** Attributes (mmae.py 105-136). *)
Record mmae := mkA {
  a_filters : list T;
  a_p : M o 1 N;
  a_H : option (M o m n);
  a_z : option (M o m 1);
  a_x : M o n 1;
  a_P : M o n n;
  a_x_prior : M o n 1;
  a_P_prior : M o n n;
  a_x_post : M o n 1;
  a_P_post : M o n n }.

(** __init__ (105-136) after the checks of [mmae_check]; [f0] is filters[0] and z its z.  p holds
    floats here; for an integer array see mmae_dt_update in Model_Dtype.  If p is an array, p is
    the caller's array, which update then changes; see Model_Refs. *)
Definition mmae_init (f0 : T) (fs : list T) (p : M o 1 N) (H : option (M o m n)) (z : option (M o m 1)) : mmae :=
  let x := f_x D f0 in let P := f_P D f0 in mkA fs p H z x P x P x P.

(** for f in filters: f.predict(u) (151-152). *)
Fixpoint mmae_predict_all (u : option (M o l 1)) (fs : list T) : list T * option exn :=
  match fs with
  | [] => ([], None)
  | f :: r =>
      match f_predict D u f with
      | (f, Some e) => (f :: r, Some e)
      | (f, None) => let (r, e) := mmae_predict_all u r in (f :: r, e)
      end
  end.
(** predict (139-156).  The default u = 0 is modelled as no control input, which is what it amounts to unless the
    filter has a B with more than one column (then x is broadcast to a matrix). *)
Definition mmae_predict (u : option (M o l 1)) (s : mmae) : mmae * option exn :=
  match mmae_predict_all u (a_filters s) with
  | (fs, Some e) => (mkA fs (a_p s) (a_H s) (a_z s) (a_x s) (a_P s) (a_x_prior s) (a_P_prior s) (a_x_post s) (a_P_post s), Some e)
  | (fs, None) => (mkA fs (a_p s) (a_H s) (a_z s) (a_x s) (a_P s) (a_x s) (a_P s) (a_x_post s) (a_P_post s), None)
  end.

(** The loop of update (181-183). *)
Fixpoint mmae_update_all (z : option (M o m 1)) (R : option (sm o m)) (H : option (M o m n)) (i : nat) (fs : list T) (p : M o 1 N)
    : list T * M o 1 N * option exn :=
  match fs with
  | [] => ([], p, None)
  | f :: r =>
      match f_update D z R H f with
      | (f, Some e) => (f :: r, p, Some e)
      | (f, None) =>
          let (L, f) := f_lik D f in
          let p := mfun 1 N (fun _ j => if j =? i then smul o (mget p 0 j) L else mget p 0 j) in
          let '(r, p, e) := mmae_update_all z R H (S i) r p in
          (f :: r, p, e)
      end
  end.
(** The loop of 202-204: zip pairs the k-th filter with the k-th ROW of x (an array of one element, subtracted from
    every entry of f.x), so at most n filters are visited. *)
Definition mmae_P (fs : list T) (p : nat -> sc o) (x : M o n 1) : M o n n :=
  fold_left (fun a q =>
      let y := mfun n 1 (fun i _ => ssub o (mget (f_x D (fst q)) i 0) (mget x (snd q) 0)) in
      a + mscale (p (snd q)) (y @ y^T + f_P D (fst q)))
    (combine fs (seq 0 (min n (length fs)))) (mzeros n n).
(** update (158-210). *)
Definition mmae_update (z : option (M o m 1)) (R : option (sm o m)) (H : option (M o m n)) (s : mmae) : mmae * option exn :=
  let H := match H with None => a_H s | Some _ => H end in
  match mmae_update_all z R H 0 (a_filters s) (a_p s) with
  | (fs, p, Some e) => (mkA fs p (a_H s) (a_z s) (a_x s) (a_P s) (a_x_prior s) (a_P_prior s) (a_x_post s) (a_P_post s), Some e)
  | (fs, p, None) =>
      let p := mdivs p (vsum p) in
      let x := mix_x fs (fun i => mget p 0 i) in
      let P := mmae_P fs (fun i => mget p 0 i) x in
      (mkA fs p (a_H s) z x P (a_x_prior s) (a_P_prior s) x P, None)
  end.

Inductive mmae_call := APredict (u : option (M o l 1)) | AUpdate (z : option (M o m 1)) (R : option (sm o m)) (H : option (M o m n)).
Definition mmae_step (c : mmae_call) (s : mmae) : mmae * option exn :=
  match c with APredict u => mmae_predict u s | AUpdate z R H => mmae_update z R H s end.
(** A program that stops at the first exception. *)
Fixpoint mmae_run (cs : list mmae_call) (s : mmae) : option mmae :=
  match cs with
  | [] => Some s
  | c :: cs => match mmae_step c s with (s, None) => mmae_run cs s | (_, Some _) => None end
  end.
End MMAE.
End Bank.

(** The checks of IMMEstimator.__init__ (133-145); a shape is the list of dimensions. *)
Definition imm_check (shapes : list (list nat)) : option exn :=
  match shapes with
  | sh :: (_ :: _) as r => if forallb (fun t => if list_eq_dec Nat.eq_dec sh t then true else false) r then None else Some ValueError
  | _ => Some ValueError
  end.
(** The checks of MMAEFilterBank.__init__ (106-110). *)
Definition mmae_check (nfilters np : nat) (dim_x : nat) : option exn :=
  if negb (nfilters =? np) then Some ValueError else if dim_x <? 1 then Some ValueError else None.
