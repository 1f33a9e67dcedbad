(** * KalmanFilter with NumPy's run-time shapes.

    [Model_KF.v] gives every array its documented shape.  Here the attributes and arguments are
    arrays of any shape up to rank 2, and [dot], [+], [-], [.T] follow NumPy's rules for shapes and
    broadcasting.  [Prop_Dyn.v] relates the two. *)
From Coq Require Import List Arith Bool.
From Verif Require Import Ops.
Import ListNotations.
Set Implicit Arguments.
Unset Strict Implicit.

(** A typed array at another type with the same dimensions. *)
Definition castM {o : nops} {m n : nat} (m' n' : nat) (X : M o m n) : option (M o m' n') :=
  match Nat.eq_dec m m', Nat.eq_dec n n' with
  | left e, left f => Some (eq_rect n (fun k => M o m' k) (eq_rect m (fun k => M o k n) X m' e) n' f)
  | _, _ => None
  end.

Section Dyn.
Variable o : nops.

(** A number, a 1-D array (its entries kept as a column) or a 2-D array.  Simplification: a 0-d
    array is not distinguished from a number, and there are no arrays of rank 3 or more. *)
Inductive arr : Type :=
| Sc (a : sc o)
| A1 (n : nat) (v : M o n 1)
| A2 (m n : nat) (X : M o m n).

Definition shape (a : arr) : list nat :=
  match a with Sc _ => [] | @A1 n _ => [n] | @A2 m n _ => [m; n] end.
Definition ndim (a : arr) : nat := length (shape a).

(** numpy.dot: a product with a number scales; otherwise the inner dimensions must agree. *)
Definition a_dot (a b : arr) : res arr :=
  match a, b with
  | Sc a, Sc b => Ok (Sc (smul o a b))
  | Sc a, A1 v | A1 v, Sc a => Ok (A1 (mscale a v))
  | Sc a, A2 X | A2 X, Sc a => Ok (A2 (mscale a X))
  | @A1 n v, A1 w => match castM n 1 w with Some w => Ok (Sc (mget (mdot (mtr v) w) 0 0)) | None => Err ValueError end
  | @A1 n v, @A2 _ q Y => match castM n q Y with Some Y => Ok (A1 (mtr (mdot (mtr v) Y))) | None => Err ValueError end
  | @A2 _ k X, A1 v => match castM k 1 v with Some v => Ok (A1 (mdot X v)) | None => Err ValueError end
  | @A2 _ k X, @A2 _ q Y => match castM k q Y with Some Y => Ok (A2 (mdot X Y)) | None => Err ValueError end
  end.

(** One axis of NumPy's broadcasting. *)
Definition bdim (a b : nat) : option nat :=
  if a =? b then Some a else if a =? 1 then Some b else if b =? 1 then Some a else None.
(** Reading an array along a broadcast axis. *)
Definition bidx (d i : nat) : nat := if d =? 1 then 0 else i.
Definition bcast2 (f : sc o -> sc o -> sc o) {m n p q : nat} (X : M o m n) (Y : M o p q) : res arr :=
  match bdim m p, bdim n q with
  | Some r, Some c => Ok (A2 (mfun r c (fun i j => f (mget X (bidx m i) (bidx n j)) (mget Y (bidx p i) (bidx q j)))))
  | _, _ => Err ValueError
  end.
(** An elementwise operator: [g] is the operator on arrays of the same shape, [f] the one on
    entries, used when the shapes differ and are broadcast. *)
Definition a_op (f : sc o -> sc o -> sc o) (g : forall m n, M o m n -> M o m n -> M o m n) (a b : arr) : res arr :=
  match a, b with
  | Sc a, Sc b => Ok (Sc (f a b))
  | Sc a, A1 v => Ok (A1 (mmap (f a) v))
  | A1 v, Sc b => Ok (A1 (mmap (fun x => f x b) v))
  | Sc a, A2 X => Ok (A2 (mmap (f a) X))
  | A2 X, Sc b => Ok (A2 (mmap (fun x => f x b) X))
  | @A1 n v, @A1 k w =>
      match castM n 1 w with
      | Some w => Ok (A1 (g n 1 v w))
      | None => match bdim n k with
                | Some r => Ok (A1 (mfun r 1 (fun i _ => f (mget v (bidx n i) 0) (mget w (bidx k i) 0))))
                | None => Err ValueError
                end
      end
  | A1 v, A2 Y => bcast2 f (mtr v) Y
  | A2 X, A1 w => bcast2 f X (mtr w)
  | @A2 m n X, A2 Y => match castM m n Y with Some Y => Ok (A2 (g m n X Y)) | None => bcast2 f X Y end
  end.
Definition a_add := a_op (sadd o) (@madd o).
Definition a_sub := a_op (ssub o) (@msub o).
(** A number times an array. *)
Definition a_scale (s : sc o) (a : arr) : arr :=
  match a with Sc a => Sc (smul o s a) | A1 v => A1 (mscale s v) | A2 X => A2 (mscale s X) end.
(** [a.T]: a Python float has no such attribute. *)
Definition a_T (a : arr) : res arr :=
  match a with Sc _ => Err AttributeError | A1 v => Ok (A1 v) | A2 X => Ok (A2 (mtr X)) end.
(** [self.inv(a)]: numpy.linalg.inv raises LinAlgError unless the array is square and invertible. *)
Definition a_inv (inv : forall k, M o k k -> option (M o k k)) (a : arr) : res arr :=
  match a with
  | @A2 m n X => match castM m m X with
                 | Some X => match inv m X with Some Y => Ok (A2 Y) | None => Err LinAlgError end
                 | None => Err LinAlgError
                 end
  | _ => Err LinAlgError
  end.

(** np.atleast_2d (helpers.py:327). *)
Definition a_2d (a : arr) : arr :=
  match a with Sc a => A2 (mfun 1 1 (fun _ _ => a)) | A1 v => A2 (mtr v) | A2 X => A2 X end.
(** reshape_z (helpers.py:324-342).  [z[:, 0]] of a (dim_z, 1) array is kept as that column. *)
Definition a_reshape_z (z : arr) (dim_z ndim : nat) : res arr :=
  match a_2d z with
  | @A2 p q Z =>
      let z := if q =? dim_z then A2 (mtr Z) else A2 Z in
      match z with
      | @A2 p q Z =>
          match castM dim_z 1 Z with
          | None => Err ValueError
          | Some Z => if ndim =? 1 then Ok (A1 Z)
                      else if ndim =? 0 then (if dim_z =? 0 then Err IndexError else Ok (Sc (mget Z 0 0)))
                      else Ok (A2 Z)
          end
      | _ => Err ValueError
      end
  | _ => Err ValueError
  end.

(** The attributes used by predict and update (kalman_filter.py 395-434).  [dk_z] is None for the
    column of Nones.  The likelihood caches are left out. *)
Record dk := mkDK {
  dk_dim_x : nat; dk_dim_z : nat;
  dk_x : arr; dk_P : arr; dk_Q : arr; dk_B : option arr; dk_F : arr; dk_H : arr; dk_R : arr;
  dk_alpha_sq : sc o; dk_z : option arr; dk_K : arr; dk_y : arr; dk_S : arr; dk_SI : arr;
  dk_x_prior : arr; dk_P_prior : arr; dk_x_post : arr; dk_P_post : arr;
  dk_inv : forall k, M o k k -> option (M o k k)
}.
Definition set_x v (s : dk) := mkDK (dk_dim_x s) (dk_dim_z s) v (dk_P s) (dk_Q s) (dk_B s) (dk_F s) (dk_H s) (dk_R s) (dk_alpha_sq s) (dk_z s) (dk_K s) (dk_y s) (dk_S s) (dk_SI s) (dk_x_prior s) (dk_P_prior s) (dk_x_post s) (dk_P_post s) (dk_inv s).
Definition set_P v (s : dk) := mkDK (dk_dim_x s) (dk_dim_z s) (dk_x s) v (dk_Q s) (dk_B s) (dk_F s) (dk_H s) (dk_R s) (dk_alpha_sq s) (dk_z s) (dk_K s) (dk_y s) (dk_S s) (dk_SI s) (dk_x_prior s) (dk_P_prior s) (dk_x_post s) (dk_P_post s) (dk_inv s).
Definition set_z v (s : dk) := mkDK (dk_dim_x s) (dk_dim_z s) (dk_x s) (dk_P s) (dk_Q s) (dk_B s) (dk_F s) (dk_H s) (dk_R s) (dk_alpha_sq s) v (dk_K s) (dk_y s) (dk_S s) (dk_SI s) (dk_x_prior s) (dk_P_prior s) (dk_x_post s) (dk_P_post s) (dk_inv s).
Definition set_K v (s : dk) := mkDK (dk_dim_x s) (dk_dim_z s) (dk_x s) (dk_P s) (dk_Q s) (dk_B s) (dk_F s) (dk_H s) (dk_R s) (dk_alpha_sq s) (dk_z s) v (dk_y s) (dk_S s) (dk_SI s) (dk_x_prior s) (dk_P_prior s) (dk_x_post s) (dk_P_post s) (dk_inv s).
Definition set_y v (s : dk) := mkDK (dk_dim_x s) (dk_dim_z s) (dk_x s) (dk_P s) (dk_Q s) (dk_B s) (dk_F s) (dk_H s) (dk_R s) (dk_alpha_sq s) (dk_z s) (dk_K s) v (dk_S s) (dk_SI s) (dk_x_prior s) (dk_P_prior s) (dk_x_post s) (dk_P_post s) (dk_inv s).
Definition set_S v (s : dk) := mkDK (dk_dim_x s) (dk_dim_z s) (dk_x s) (dk_P s) (dk_Q s) (dk_B s) (dk_F s) (dk_H s) (dk_R s) (dk_alpha_sq s) (dk_z s) (dk_K s) (dk_y s) v (dk_SI s) (dk_x_prior s) (dk_P_prior s) (dk_x_post s) (dk_P_post s) (dk_inv s).
Definition set_SI v (s : dk) := mkDK (dk_dim_x s) (dk_dim_z s) (dk_x s) (dk_P s) (dk_Q s) (dk_B s) (dk_F s) (dk_H s) (dk_R s) (dk_alpha_sq s) (dk_z s) (dk_K s) (dk_y s) (dk_S s) v (dk_x_prior s) (dk_P_prior s) (dk_x_post s) (dk_P_post s) (dk_inv s).
Definition set_prior v w (s : dk) := mkDK (dk_dim_x s) (dk_dim_z s) (dk_x s) (dk_P s) (dk_Q s) (dk_B s) (dk_F s) (dk_H s) (dk_R s) (dk_alpha_sq s) (dk_z s) (dk_K s) (dk_y s) (dk_S s) (dk_SI s) v w (dk_x_post s) (dk_P_post s) (dk_inv s).
Definition set_post v w (s : dk) := mkDK (dk_dim_x s) (dk_dim_z s) (dk_x s) (dk_P s) (dk_Q s) (dk_B s) (dk_F s) (dk_H s) (dk_R s) (dk_alpha_sq s) (dk_z s) (dk_K s) (dk_y s) (dk_S s) (dk_SI s) (dk_x_prior s) (dk_P_prior s) v w (dk_inv s).

(** KalmanFilter.__init__ (395-434). *)
Definition dk_init (dim_x dim_z : nat) (inv : forall k, M o k k -> option (M o k k)) : dk :=
  mkDK dim_x dim_z (A2 (mzeros dim_x 1)) (A2 (meye dim_x)) (A2 (meye dim_x)) None (A2 (meye dim_x))
    (A2 (mzeros dim_z dim_x)) (A2 (meye dim_z)) (s1 o) None (A2 (mzeros dim_x dim_z)) (A2 (mzeros dim_z 1))
    (A2 (mzeros dim_z dim_z)) (A2 (mzeros dim_z dim_z)) (A2 (mzeros dim_x 1)) (A2 (meye dim_x))
    (A2 (mzeros dim_x 1)) (A2 (meye dim_x)) inv.
Definition set_Q v (s : dk) := mkDK (dk_dim_x s) (dk_dim_z s) (dk_x s) (dk_P s) v (dk_B s) (dk_F s) (dk_H s) (dk_R s) (dk_alpha_sq s) (dk_z s) (dk_K s) (dk_y s) (dk_S s) (dk_SI s) (dk_x_prior s) (dk_P_prior s) (dk_x_post s) (dk_P_post s) (dk_inv s).
Definition set_B v (s : dk) := mkDK (dk_dim_x s) (dk_dim_z s) (dk_x s) (dk_P s) (dk_Q s) v (dk_F s) (dk_H s) (dk_R s) (dk_alpha_sq s) (dk_z s) (dk_K s) (dk_y s) (dk_S s) (dk_SI s) (dk_x_prior s) (dk_P_prior s) (dk_x_post s) (dk_P_post s) (dk_inv s).
Definition set_H v (s : dk) := mkDK (dk_dim_x s) (dk_dim_z s) (dk_x s) (dk_P s) (dk_Q s) (dk_B s) (dk_F s) v (dk_R s) (dk_alpha_sq s) (dk_z s) (dk_K s) (dk_y s) (dk_S s) (dk_SI s) (dk_x_prior s) (dk_P_prior s) (dk_x_post s) (dk_P_post s) (dk_inv s).
Definition set_R v (s : dk) := mkDK (dk_dim_x s) (dk_dim_z s) (dk_x s) (dk_P s) (dk_Q s) (dk_B s) (dk_F s) (dk_H s) v (dk_alpha_sq s) (dk_z s) (dk_K s) (dk_y s) (dk_S s) (dk_SI s) (dk_x_prior s) (dk_P_prior s) (dk_x_post s) (dk_P_post s) (dk_inv s).

(** [isscalar(a)] (468, 524). *)
Definition or_eye (n : nat) (d : arr) (a : option arr) : arr :=
  match a with None => d | Some (Sc q) => A2 (mscale q (meye n)) | Some a => a end.

(** KalmanFilter.predict (437-482).  The object is as the call leaves it: when computing P raises,
    x has already been assigned. *)
Definition dk_predict (u B F Q : option arr) (s : dk) : dk * option exn :=
  let B := match B with None => dk_B s | _ => B end in
  let F := opt_or (dk_F s) F in
  let Q := or_eye (dk_dim_x s) (dk_Q s) Q in
  let x := match B, u with
           | Some B, Some u => rbind (a_dot F (dk_x s)) (fun Fx => rbind (a_dot B u) (fun Bu => a_add Fx Bu))
           | _, _ => a_dot F (dk_x s)
           end in
  match x with
  | Err e => (s, Some e)
  | Ok x =>
      let s := set_x x s in
      match rbind (a_dot F (dk_P s)) (fun FP => rbind (a_T F) (fun Ft => rbind (a_dot FP Ft) (fun FPF =>
              a_add (a_scale (dk_alpha_sq s) FPF) Q))) with
      | Err e => (s, Some e)
      | Ok P => (set_prior x P (set_P P s), None)
      end
  end.

(** KalmanFilter.update (485-561), each assignment in program order. *)
Definition dk_update (z R H : option arr) (s : dk) : dk * option exn :=
  match z with
  | None => (set_y (A2 (mzeros (dk_dim_z s) 1)) (set_post (dk_x s) (dk_P s) (set_z None s)), None)
  | Some z =>
      let R := or_eye (dk_dim_z s) (dk_R s) R in
      match (match H with None => a_reshape_z z (dk_dim_z s) (ndim (dk_x s)) | Some _ => Ok z end) with
      | Err e => (s, Some e)
      | Ok z =>
      let H := opt_or (dk_H s) H in
      match rbind (a_dot H (dk_x s)) (a_sub z) with
      | Err e => (s, Some e)
      | Ok y =>
      let s := set_y y s in
      match rbind (a_T H) (a_dot (dk_P s)) with
      | Err e => (s, Some e)
      | Ok PHT =>
      match rbind (a_dot H PHT) (fun HPH => a_add HPH R) with
      | Err e => (s, Some e)
      | Ok Sm =>
      let s := set_S Sm s in
      match a_inv (dk_inv s) Sm with
      | Err e => (s, Some e)
      | Ok SI =>
      let s := set_SI SI s in
      match a_dot PHT SI with
      | Err e => (s, Some e)
      | Ok K =>
      let s := set_K K s in
      match rbind (a_dot K y) (a_add (dk_x s)) with
      | Err e => (s, Some e)
      | Ok x =>
      let s := set_x x s in
      match rbind (a_dot K H) (fun KH => rbind (a_sub (A2 (meye (dk_dim_x s))) KH) (fun I_KH =>
            rbind (a_dot I_KH (dk_P s)) (fun IP => rbind (a_T I_KH) (fun It => rbind (a_dot IP It) (fun IPI =>
            rbind (a_dot K R) (fun KR => rbind (a_T K) (fun Kt => rbind (a_dot KR Kt) (fun KRK =>
            a_add IPI KRK)))))))) with
      | Err e => (s, Some e)
      | Ok P => let s := set_P P s in (set_post (dk_x s) (dk_P s) (set_z (Some z) s), None)
      end end end end end end end end
  end.

(** What an attribute or argument may be for [test_matrix_dimensions]: an ndarray of any rank, a
    nested list, or a Python number. *)
Inductive pyval := PArr (sh : list nat) | PList (sh : list nat) | PNum.
(** numpy.shape of it, and its attribute [.shape]. *)
Definition np_shape (v : pyval) : list nat := match v with PArr s | PList s => s | PNum => [] end.
Definition at_shape (v : pyval) : res (list nat) := match v with PArr s => Ok s | _ => Err AttributeError end.
Definition sh_eqb (s t : list nat) : bool := if list_eq_dec Nat.eq_dec s t then true else false.
Definition assert_ (b : bool) : res unit := if b then Ok tt else Err AssertionError.
(** The shape of [dot(H, x)] for H of rank 2 and x of rank 1 or 2. *)
Definition dot_shape (h x : list nat) : res (list nat) :=
  match h, x with
  | [m; k], [n] => if k =? n then Ok [m] else Err ValueError
  | [m; k], [n; q] => if k =? n then Ok [m; q] else Err ValueError
  | _, _ => Err ValueError
  end.

(** KalmanFilter.test_matrix_dimensions (1299-1396) on the shapes of the attributes and
    arguments; [x] is an ndarray.  Ok means every assertion held. *)
Definition test_matrix_dimensions (dim_x dim_z : nat) (x : list nat) (P Q F H R : pyval) (z : option pyval) : res unit :=
  rbind (assert_ ((length x =? 1) || (length x =? 2))) (fun _ =>
  rbind (if length x =? 1 then assert_ (nth 0 x 0 =? dim_x) else assert_ (sh_eqb x [dim_x; 1])) (fun _ =>
  rbind (at_shape P) (fun Ps => rbind (assert_ (sh_eqb Ps [dim_x; dim_x])) (fun _ =>
  rbind (at_shape Q) (fun Qs => rbind (assert_ (sh_eqb Qs [dim_x; dim_x])) (fun _ =>
  rbind (at_shape F) (fun Fs => rbind (assert_ (sh_eqb Fs [dim_x; dim_x])) (fun _ =>
  rbind (assert_ (length (np_shape H) =? 2)) (fun _ =>
  rbind (at_shape H) (fun Hs => rbind (assert_ (nth 1 Hs 0 =? nth 0 Ps 0)) (fun _ =>
  let hr := nth 0 Hs 0 in
  rbind (if hr =? 1 then assert_ (sh_eqb (np_shape R) [] || sh_eqb (np_shape R) [1] || sh_eqb (np_shape R) [1; 1])
         else assert_ (sh_eqb (np_shape R) [hr; hr])) (fun _ =>
  let zs := match z with Some z => np_shape z | None => [dim_z; 1] end in
  rbind (dot_shape Hs x) (fun Hx =>
  rbind (if sh_eqb zs [] then assert_ ((length Hx =? 1) || sh_eqb Hx [1; 1])
         else if sh_eqb Hx [1] then assert_ (nth 0 zs 0 =? 1)
         else assert_ (sh_eqb zs Hx || ((length zs =? 1) && sh_eqb Hx [nth 0 zs 0; 1]))) (fun _ =>
  if (1 <? length Hx) && negb (sh_eqb Hx [1; 1]) then assert_ (sh_eqb Hx zs) else Ok tt)))))))))))))).
End Dyn.
Arguments Sc {o} a.
Arguments A1 {o n} v.
Arguments A2 {o m n} X.
