(** * Specification of the discrete Bayes filter: distributions as functions, moves as push-forwards. *)
From Coq Require Import ZArith.
From mathcomp Require Import all_ssreflect all_algebra.
Set Implicit Arguments.
Unset Strict Implicit.
Unset Printing Implicit Defensive.
Import GRing.Theory Num.Theory.
Local Open Scope ring_scope.
Delimit Scope Z_scope with coqZ.

Section Spec.
Variable F : realFieldType.

(** The array is a probability distribution. *)
Definition dist (v : seq F) : Prop := (forall i, 0 <= nth 0 v i) /\ \sum_(x <- v) x = 1.

(** The noise: kernel entry k means a displacement of k - K/2. *)
Definition disp (kernel : seq F) (k : nat) : Z := (Z.of_nat k - Z.of_nat (size kernel)./2)%coqZ.

(** Probability of being at i, of n places on a ring, after moving by offset plus noise from a place distributed as v. *)
Definition moved_ring (v : seq F) (offset : Z) (kernel : seq F) (i : nat) : F :=
  \sum_(j < size v) \sum_(k < size kernel)
    if Z.eqb ((Z.of_nat j + offset + disp kernel k) mod Z.of_nat (size v))%coqZ (Z.of_nat i)
    then nth 0 v j * nth 0 kernel k else 0.

Definition on_line (n : nat) (z : Z) : bool := (Z.leb 0 z && Z.ltb z (Z.of_nat n))%coqZ.

(** On a line: what leaves the line after the deterministic move, or after the noise, is gone. *)
Definition moved_line (v : seq F) (offset : Z) (kernel : seq F) (i : nat) : F :=
  \sum_(j < size v) \sum_(k < size kernel)
    if on_line (size v) (Z.of_nat j + offset)%coqZ && Z.eqb (Z.of_nat j + offset + disp kernel k)%coqZ (Z.of_nat i)
    then nth 0 v j * nth 0 kernel k else 0.

(** Distribution of the sum of two independent displacements. *)
Definition kernel_sum (k1 k2 : seq F) : seq F :=
  mkseq (fun c => \sum_(a < size k1) \sum_(b < size k2) if (a + b == c)%N then nth 0 k1 a * nth 0 k2 b else 0)
        (size k1 + size k2).-1.

(** The hidden Markov model with these moves: unnormalised probability of being at i and of all observations so far. *)
Fixpoint forward (kernel : seq F) (moves : seq (Z * seq F)) (a : seq F) : seq F :=
  match moves with
  | [::] => a
  | (offset, lik) :: r => forward kernel r (mkseq (fun i => nth 0 lik i * moved_ring a offset kernel i) (size a))
  end.
End Spec.
