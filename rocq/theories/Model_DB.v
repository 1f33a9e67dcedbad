(** * Model of discrete_bayes/discrete_bayes.py.

    Arrays are one-dimensional arrays of floats, as lists.  Not modelled: integer arrays (the in-place division of
    [normalize] raises on them) and arrays of more dimensions. *)
From Coq Require Import List Arith Bool ZArith.
From Verif Require Import Ops.
Import ListNotations.
Set Implicit Arguments.
Unset Strict Implicit.

Section DB.
Variable o : sops.
Notation V := (list (sc o)).

(** Python's sum over an array, from 0 and left to right. *)
Definition pysum (v : V) : sc o := fold_left (sadd o) v (s0 o).

(** normalize (26-48).  The argument, if an array, is overwritten with the result; the caller's view is not modelled,
    the functions below only call it on arrays they have created. *)
Definition db_normalize (pdf : V) : V := let s := pysum pdf in map (fun a => sdiv o a s) pdf.

(** prior * likelihood with NumPy's broadcasting. *)
Definition bmul (a b : V) : res V :=
  if length a =? length b then Ok (map (fun p => smul o (fst p) (snd p)) (combine a b)) else
  match a, b with
  | [x], _ => Ok (map (fun y => smul o x y) b)
  | _, [y] => Ok (map (fun x => smul o x y) a)
  | _, _ => Err ValueError
  end.

(** update (51-89). *)
Definition db_update (likelihood prior : V) : res V :=
  rmap db_normalize (bmul prior likelihood).

(** v[z], the index counted in Z and inside the array. *)
Definition zget (v : V) (z : Z) : sc o := nth (Z.to_nat z) v (s0 o).

(** numpy.roll: entry i comes from entry (i - offset) mod n. *)
Definition roll (v : V) (offset : Z) : V :=
  map (fun i => zget v ((Z.of_nat i - offset) mod Z.of_nat (length v))%Z) (seq 0 (length v)).

Definition inside (n : nat) (z : Z) : bool := ((0 <=? z) && (z <? Z.of_nat n))%Z.

(** scipy.ndimage.shift for a whole-number offset: entry i comes from entry i - offset, [cval] from outside.  scipy
    evaluates an interpolating spline of order 3 there; at whole-number offsets that is the array itself up to
    rounding, which is the simplification made here.  Fractional offsets are not modelled. *)
Definition shift (v : V) (offset : Z) (cval : sc o) : V :=
  map (fun i => let z := (Z.of_nat i - offset)%Z in if inside (length v) z then zget v z else cval) (seq 0 (length v)).

(** scipy.ndimage.convolve, 1-D, kernel not empty: entry i is the sum over k of kernel[k] * v[i + K/2 - k], K the length
    of the kernel; [get] reads outside the array.  (scipy documents: even kernels are centred at K/2 as well.)  The order
    of the sum is a simplification. *)
Definition conv (get : Z -> sc o) (n : nat) (kernel : V) : V :=
  map (fun i =>
    fold_left (fun a k => sadd o a (smul o (nth k kernel (s0 o)) (get (Z.of_nat i + Z.of_nat (length kernel / 2) - Z.of_nat k)%Z)))
      (seq 0 (length kernel)) (s0 o)) (seq 0 n).

Definition conv_wrap (v kernel : V) : V := conv (fun z => zget v (z mod Z.of_nat (length v))%Z) (length v) kernel.
Definition conv_const (v kernel : V) (cval : sc o) : V :=
  conv (fun z => if inside (length v) z then zget v z else cval) (length v) kernel.

(** predict (93-128); [wrap] is mode == 'wrap', any other mode goes the second way. *)
Definition db_predict (pdf : V) (offset : Z) (kernel : V) (wrap : bool) (cval : sc o) : V :=
  if wrap then conv_wrap (roll pdf offset) kernel else conv_const (shift pdf offset cval) kernel cval.

(** The loop of a discrete Bayes filter: predict with wrap, then update. *)
Fixpoint db_run (kernel : V) (moves : list (Z * V)) (belief : V) : res V :=
  match moves with
  | [] => Ok belief
  | (offset, lik) :: r => rbind (db_update lik (db_predict belief offset kernel true (s0 o))) (db_run kernel r)
  end.
End DB.
