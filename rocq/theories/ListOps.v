(** * Executable instances: list-of-rows matrices over any scalars.
    Used for worked examples, and with binary64 floats for rounding witnesses. *)
From Coq Require Import List Arith Bool ZArith QArith Floats.
From Verif Require Import Ops.
Import ListNotations.

Section ListMatrices.
Variable s : sops.

Definition l_fun (m n : nat) (f : nat -> nat -> sc s) : list (list (sc s)) :=
  map (fun i => map (fun j => f i j) (seq 0 n)) (seq 0 m).
Definition l_get (A : list (list (sc s))) (i j : nat) : sc s := nth j (nth i A []) (s0 s).
Definition l_sum (l : list (sc s)) : sc s :=
  match l with [] => s0 s | a :: l => fold_left (sadd s) l a end.

Definition listO : nops :=
  @NOps s (fun _ _ => list (list (sc s)))
    (fun m n p A B => l_fun m p (fun i k => l_sum (map (fun j => smul s (l_get A i j) (l_get B j k)) (seq 0 n))))
    (fun m n A B => l_fun m n (fun i j => sadd s (l_get A i j) (l_get B i j)))
    (fun m n A B => l_fun m n (fun i j => ssub s (l_get A i j) (l_get B i j)))
    (fun m n a A => l_fun m n (fun i j => smul s a (l_get A i j)))
    (fun m n A a => l_fun m n (fun i j => sdiv s (l_get A i j) a))
    (fun m n A => l_fun n m (fun i j => l_get A j i))
    (fun n => l_fun n n (fun i j => if i =? j then s1 s else s0 s))
    (fun m n => l_fun m n (fun _ _ => s0 s))
    (fun m n A => l_get A)
    (fun m n f => l_fun m n f).

(** 1x1 inverse, raising on zero. *)
Definition l_inv1 (A : list (list (sc s))) : option (list (list (sc s))) :=
  let a := l_get A 0 0 in
  if seqb s a (s0 s) then None else Some [[sdiv s (s1 s) a]].
(** 2x2 inverse, raising on a zero determinant. *)
Definition l_inv2 (A : list (list (sc s))) : option (list (list (sc s))) :=
  let a := l_get A 0 0 in let b := l_get A 0 1 in
  let c := l_get A 1 0 in let d := l_get A 1 1 in
  let det := ssub s (smul s a d) (smul s b c) in
  if seqb s det (s0 s) then None else
  Some [[sdiv s d det; sdiv s (sopp s b) det]; [sdiv s (sopp s c) det; sdiv s a det]].
End ListMatrices.

(** Rationals, kept reduced so that equal numbers are syntactically equal.  The
    transcendental functions are not used by the examples (identity here). *)
Definition QS : sops :=
  @SOps Q 0%Q 1%Q (fun x y => Qred (x + y)) (fun x y => Qred (x - y)) (fun x y => Qred (x * y))
    (fun x y => Qred (x / y)) (fun x => Qred (- x))
    (fun x y => negb (Qle_bool y x)) Qle_bool Qeq_bool (fun x => x) (fun x => x) (fun x => x)
    (fun k => inject_Z (Z.of_nat k)).
Definition QO : nops := listO QS.

(** IEEE binary64 ([exp], [log] arbitrary). *)
Definition floatS (fexp flog : float -> float) : sops :=
  @SOps float 0%float 1%float PrimFloat.add PrimFloat.sub PrimFloat.mul PrimFloat.div PrimFloat.opp
    PrimFloat.ltb PrimFloat.leb PrimFloat.eqb PrimFloat.sqrt fexp flog
    (fun k => PrimFloat.of_uint63 (Uint63.of_Z (Z.of_nat k))).
Definition floatO (fexp flog : float -> float) : nops := listO (floatS fexp flog).
