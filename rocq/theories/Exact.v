(** * Exact arithmetic: mathcomp matrices over an arbitrary real field.

    [sqrt], [exp], [log] are arbitrary functions; theorems needing their laws say so. *)
From mathcomp Require Import all_ssreflect all_algebra.
From Verif Require Import Ops.
Set Implicit Arguments.
Unset Strict Implicit.
Unset Printing Implicit Defensive.
Import Order.TTheory GRing.Theory Num.Theory.
Local Open Scope ring_scope.

Section Exact.
Variable F : realFieldType.
Variables (fsqrt fexp flog : F -> F).

Definition exactS : sops :=
  @SOps F 0 1
       (fun x y => x + y) (fun x y => x - y) (fun x y => x * y) (fun x y => x / y)
       (fun x => - x) (fun x y => x < y) (fun x y => x <= y) (fun x y => x == y)
       fsqrt fexp flog (fun n => n%:R).

Definition mx_get m n (A : 'M[F]_(m, n)) (i j : nat) : F :=
  match insub i, insub j with
  | Some i', Some j' => A i' j'
  | _, _ => 0
  end.

Definition exactO : nops :=
  @NOps exactS (fun m n => 'M[F]_(m, n))
        (fun m n p (A : 'M[F]_(m, n)) (B : 'M[F]_(n, p)) => A *m B)
        (fun m n (A B : 'M[F]_(m, n)) => A + B)
        (fun m n (A B : 'M[F]_(m, n)) => A - B)
        (fun m n (s : F) (A : 'M[F]_(m, n)) => s *: A)
        (fun m n (A : 'M[F]_(m, n)) (s : F) => s^-1 *: A)
        (fun m n (A : 'M[F]_(m, n)) => A^T)
        (fun n => 1%:M) (fun m n => 0)
        mx_get
        (fun m n f => \matrix_(i < m, j < n) f i j).

Lemma mx_getE m n (A : 'M[F]_(m, n)) (i : 'I_m) (j : 'I_n) : mx_get A i j = A i j.
Proof. by rewrite /mx_get !valK. Qed.

Lemma mx_get_out m n (A : 'M[F]_(m, n)) i j : (m <= i)%N || (n <= j)%N -> mx_get A i j = 0.
Proof.
rewrite /mx_get; case: insubP => [i' lti _|//]; case: insubP => [j' ltj _|//].
by rewrite leqNgt lti leqNgt ltj.
Qed.

Lemma mx_getP m n (A : 'M[F]_(m, n)) i j (lti : (i < m)%N) (ltj : (j < n)%N) :
  mx_get A i j = A (Ordinal lti) (Ordinal ltj).
Proof. exact: (mx_getE A (Ordinal lti) (Ordinal ltj)). Qed.

(** [numpy.linalg.inv]: raises on singular input. *)
Definition mx_inv n (A : 'M[F]_n) : option 'M[F]_n :=
  if A \in unitmx then Some (invmx A) else None.

End Exact.
