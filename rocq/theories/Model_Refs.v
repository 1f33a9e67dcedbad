(** * Which arrays the filters share, and which they write in place.

    The other models treat arrays as values.  In Python an attribute holds a reference: [self.x = e]
    makes it refer to a new array, [self.x += e] and [self.x[0] = e] change the array it refers to,
    and whoever else holds that array sees the change.  Here the arrays live in a heap, an attribute is
    a place in it, and each method is given the effect its source lines have on the places; the values
    come from the other models. *)
From Coq Require Import List Arith Bool.
From Verif Require Import Ops Model_KF Model_Sqrt Model_LSQ Model_GH Model_MM.
Import ListNotations.
Set Implicit Arguments.
Unset Strict Implicit.

(** What a call does with an attribute: nothing, binds it to a new array, or writes into the array it
    is bound to. *)
Inductive eff := Keep | New | Write.
Fixpoint upd {V : Type} (l : list V) (i : nat) (v : V) : list V :=
  match l, i with [], _ => [] | _ :: t, 0 => v :: t | x :: t, S j => x :: upd t j v end.
Definition put {V : Type} (e : eff) (h : list V) (p : nat) (v : V) : list V * nat :=
  match e with Keep => (h, p) | New => (h ++ [v], length h) | Write => (upd h p v, p) end.

(** ** KalmanFilter: x, x_prior, x_post, y, K.
    The covariances, S and SI are always bound to new arrays (kalman_filter.py 478-482, 541-561, 819-824)
    and stay values; so does z, which update binds to a deep copy (559). *)
Section KF.
Context {o : nops} {n m l : nat}.
Notation kf := (kf o n m l).
Notation kf_call := (kf_call o n m l).

Record rk := mkRK {
  r_v : kf;
  r_hx : list (M o n 1); r_hy : list (M o m 1); r_hK : list (M o n m);
  r_x : nat; r_xprior : nat; r_xpost : nat; r_y : nat; r_K : nat }.

(** The object's attributes as a reader sees them. *)
Definition r_read (s : rk) : kf :=
  set_kf_x (nth (r_x s) (r_hx s) (mzeros n 1))
  (set_kf_x_prior (nth (r_xprior s) (r_hx s) (mzeros n 1))
  (set_kf_x_post (nth (r_xpost s) (r_hx s) (mzeros n 1))
  (set_kf_y (nth (r_y s) (r_hy s) (mzeros m 1))
  (set_kf_K (nth (r_K s) (r_hK s) (mzeros n m)) (r_v s))))).

(** __init__ (399-424): five arrays. *)
Definition r_init (v : kf) : rk := mkRK v [kf_x v; kf_x_prior v; kf_x_post v] [kf_y v] [kf_K v] 0 1 2 0 0.

(** self.x: predict and predict_steadystate bind it (473-475, 587-589), a successful update,
    update_steadystate or update_correlated binds it (548, 659, 747), update_sequential writes into it
    (816); with z None or when an exception is raised before that line it is left alone. *)
Definition eff_x (c : kf_call) (e : option exn) : eff :=
  match c, e with
  | CPredict _ _ _ _, _ | CPredictSS _ _, _ => New
  | CUpdate (Some _) _ _, None | CUpdateSS (Some _), _ | CUpdateCorr (Some _) _ _, None => New
  | CUpdateSeq _ _ _ _ _ _, None => Write
  | _, _ => Keep
  end.
(** self.x_prior = self.x.copy() (481, 592). *)
Definition eff_xprior (c : kf_call) (e : option exn) : eff :=
  match c with CPredict _ _ _ _ | CPredictSS _ _ => New | _ => Keep end.
(** self.x_post = self.x.copy() (517, 560, 646, 662, 707, 751, 823). *)
Definition eff_xpost (c : kf_call) (e : option exn) : eff :=
  match c, e with
  | CUpdate _ _ _, None | CUpdateSS _, _ | CUpdateCorr _ _ _, None | CUpdateSeq _ _ _ _ _ _, None => New
  | _, _ => Keep
  end.
(** self.y: bound by update, update_steadystate and update_correlated (519, 533, 648, 655, 709, 732),
    written into by update_sequential (798), unless the block does not fit. *)
Definition eff_y (c : kf_call) (e : option exn) : eff :=
  match c, e with
  | CUpdate _ _ _, _ | CUpdateSS _, _ | CUpdateCorr _ _ _, _ => New
  | CUpdateSeq _ _ _ _ _ _, Some ValueError => Keep
  | CUpdateSeq _ _ _ _ _ _, _ => Write
  | _, _ => Keep
  end.
(** self.K: bound by update and update_correlated (544, 743), written into by update_sequential (811). *)
Definition eff_K (c : kf_call) (e : option exn) : eff :=
  match c, e with
  | CUpdate (Some _) _ _, None | CUpdateCorr (Some _) _ _, None => New
  | CUpdateSeq _ _ _ _ _ _, None => Write
  | _, _ => Keep
  end.

(** One call. *)
Definition r_step (c : kf_call) (s : rk) : rk * option exn :=
  let (v, e) := kf_step c (r_read s) in
  let (hy, ly) := put (eff_y c e) (r_hy s) (r_y s) (kf_y v) in
  let (hK, lK) := put (eff_K c e) (r_hK s) (r_K s) (kf_K v) in
  let (hx, lx) := put (eff_x c e) (r_hx s) (r_x s) (kf_x v) in
  let (hx, lp) := put (eff_xprior c e) hx (r_xprior s) (kf_x_prior v) in
  let (hx, lq) := put (eff_xpost c e) hx (r_xpost s) (kf_x_post v) in
  (mkRK v hx hy hK lx lp lq ly lK, e).

(** What a program does: calls; [kf.x = a] for a new array a; [kf.x[:] = v]; and writing through a
    reference to an array it got hold of earlier. *)
Inductive r_event := RCall (c : kf_call) | RAssign (v : M o n 1) | RPoke (v : M o n 1) | RHeld (p : nat) (v : M o n 1).
Definition set_hx hx lx (s : rk) : rk :=
  mkRK (r_v s) hx (r_hy s) (r_hK s) lx (r_xprior s) (r_xpost s) (r_y s) (r_K s).
Definition r_do (a : r_event) (s : rk) : rk :=
  match a with
  | RCall c => fst (r_step c s)
  | RAssign v => let (hx, lx) := put New (r_hx s) (r_x s) v in set_hx hx lx s
  | RPoke v => let (hx, lx) := put Write (r_hx s) (r_x s) v in set_hx hx lx s
  | RHeld p v => set_hx (upd (r_hx s) p v) (r_x s) s
  end.
Definition r_run (es : list r_event) (s : rk) : rk := fold_left (fun s a => r_do a s) es s.
End KF.

(** ** Filters with one array x.
    A filter with state [St] whose array has contents [V]; a call computes the new state and has
    an effect on x. *)
Section Cell.
Variables (St V C : Type).
Record cell := mkCell {
  c_get : St -> V; c_set : V -> St -> St; c_step : C -> St -> St; c_eff : C -> St -> eff }.
Variable A : cell.
Variable dflt : V.

Record cs := mkCS { cs_v : St; cs_h : list V; cs_x : nat }.
Definition cs_read (s : cs) : St := c_set A (nth (cs_x s) (cs_h s) dflt) (cs_v s).
Definition cs_init (v : St) : cs := mkCS v [c_get A v] 0.
Definition cs_step (c : C) (s : cs) : cs :=
  let v := cs_read s in
  let v' := c_step A c v in
  let (h, x) := put (c_eff A c v) (cs_h s) (cs_x s) (c_get A v') in
  mkCS v' h x.
(** A program that keeps what [f.x] (for LeastSquaresFilter: the value returned by update) refers to
    after each call. *)
Fixpoint cs_collect (cl : list C) (s : cs) : cs * list nat :=
  match cl with
  | [] => (s, [])
  | c :: cl => let s := cs_step c s in let (s', r) := cs_collect cl s in (s', cs_x s :: r)
  end.
(** What it then reads from the references it kept. *)
Definition cs_kept (cl : list C) (s : cs) : list V :=
  let (s', r) := cs_collect cl s in map (fun p => nth p (cs_h s') dflt) r.
End Cell.

Section Instances.
Variable o : sops.
(** LeastSquaresFilter (leastsq/least_squares.py): reset binds x to a new array (108), update writes into
    it and returns it (133-155). *)
Inductive lsq_call := LUpdate (z : sc o) | LReset.
Definition lsq_cell : cell (lsq o) (sc o * sc o * sc o) lsq_call := mkCell
  (fun s => (l_x0 s, l_x1 s, l_x2 s))
  (fun v s => mkLSQ (l_dt s) (l_sigma s) (l_order s) (l_n s) (fst (fst v)) (snd (fst v)) (snd v) (l_K0 s) (l_K1 s) (l_K2 s) (l_y s))
  (fun c s => match c with LUpdate z => lsq_update z s | LReset => lsq_reset s end)
  (fun c _ => match c with LUpdate _ => Write | LReset => New end).
(** FadingMemoryFilter (memory/fading_memory.py): order 0 binds x (166), orders 1 and 2 write into
    it (176-177, 192-194). *)
Definition fmf_cell : cell (fmf o) (sc o * sc o * sc o) (sc o) := mkCell
  (fun s => (m_x0 s, m_x1 s, m_x2 s))
  (fun v s => mkFMF (m_dt s) (m_order s) (m_beta s) (fst (fst v)) (snd (fst v)) (snd v) (m_P s) (m_e s))
  (fun z s => fmf_update z s)
  (fun _ s => match m_order s with 0 => New | _ => Write end).
(** GHFilterOrder (gh/gh_filter.py): every order writes into x (146, 158-159, 179-181); an IndexError or TypeError
    raised half way leaves what was written, which is what gho_update says. *)
Definition gho_cell : cell (gho o) (list (sc o)) (sc o * option (sc o) * option (sc o) * option (sc o)) := mkCell
  (@gho_x o)
  (fun v s => mkGHO v (gho_dt s) (gho_order s) (gho_g s) (gho_h s) (gho_k s) (gho_y s) (gho_z s))
  (fun c s => let '(z, g, h, k) := c in fst (gho_update z g h k s))
  (fun _ _ => Write).
End Instances.

Section Sqrt.
Variable o : nops.
Variables n m l : nat.
Variable qr : forall p q, M o p q -> M o p q.
Variable pinv : M o m m -> M o m m.
(** SquareRootKalmanFilter (kalman/square_root.py): predict binds x (238), update writes into it (219). *)
Definition sq_cell : cell (sq_st o n m) (M o n 1) (sq_cfg o n m l * sq_call o m l) := mkCell
  (@q_x o n m)
  (fun v s => mkSS v (q_P12 s) (q_z s) (q_K s) (q_S12 s) (q_SI12 s) (q_y s) (q_M s) (q_x_prior s) (q_P12_prior s) (q_x_post s) (q_P12_post s))
  (fun c s => sq_step qr pinv c s)
  (fun c _ => match snd c with SPredict _ => New | SUpdate (Some _) _ => Write | SUpdate None _ => Keep end).
End Sqrt.

(** ** Two MMAEFilterBanks and the array of probabilities each was given.
    [np.asarray(p)] (mmae.py:113) of a float array is that array; update writes into it (183, 185). *)
Section Banks.
Variable o : nops.
Variables n m l : nat.
Variable T : Type.
Variable D : filt o n m l T.
Variable N : nat.
Notation mmae := (mmae o n m T N).

Record banks := mkB { b_1 : mmae; b_2 : mmae; b_h : list (M o 1 N); b_p1 : nat; b_p2 : nat }.
Definition with_p (p : M o 1 N) (s : mmae) : mmae :=
  mkA (a_filters s) p (a_H s) (a_z s) (a_x s) (a_P s) (a_x_prior s) (a_P_prior s) (a_x_post s) (a_P_post s).
Definition b_read1 (b : banks) : mmae := with_p (nth (b_p1 b) (b_h b) (mzeros 1 N)) (b_1 b).
Definition b_read2 (b : banks) : mmae := with_p (nth (b_p2 b) (b_h b) (mzeros 1 N)) (b_2 b).
(** A call on the first ([false]) or the second bank. *)
Definition b_step (i : bool) (c : mmae_call o n m l) (b : banks) : banks :=
  if i then let s := fst (mmae_step D c (b_read2 b)) in mkB (b_1 b) s (upd (b_h b) (b_p2 b) (a_p s)) (b_p1 b) (b_p2 b)
  else let s := fst (mmae_step D c (b_read1 b)) in mkB s (b_2 b) (upd (b_h b) (b_p1 b) (a_p s)) (b_p1 b) (b_p2 b).
Definition b_run (cl : list (bool * mmae_call o n m l)) (b : banks) : banks := fold_left (fun b c => b_step (fst c) (snd c) b) cl b.
End Banks.
