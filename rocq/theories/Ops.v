(** * The arithmetic interface of the model.

    Every modelled function is parametric in the records below.  They carry
    operations only, no laws: a theorem proved for every [nops] holds for any
    deterministic arithmetic, IEEE binary64 included.  Instances: [Exact.v]
    (mathcomp matrices over any real field), [RealOps.v] (stdlib reals),
    [ListOps.v] (list-of-list matrices over rationals, reals or primitive binary64 floats). *)
From Coq Require Import List Arith Bool.
Import ListNotations.

(** Python exceptions that modelled code can raise. *)
Inductive exn : Set :=
| ValueError | LinAlgError | TypeError | IndexError | AttributeError
| NameError | ZeroDivisionError | NotImplementedError | AssertionError
| KeyError | UnboundLocalError.

(** Result of a pure Python function that may raise. *)
Inductive res (A : Type) : Type :=
| Ok (a : A)
| Err (e : exn).
Arguments Ok {A} a.
Arguments Err {A} e.

Definition rbind {A B : Type} (r : res A) (k : A -> res B) : res B :=
  match r with Ok a => k a | Err e => Err e end.
Definition rmap {A B : Type} (f : A -> B) (r : res A) : res B :=
  match r with Ok a => Ok (f a) | Err e => Err e end.
Definition of_option {A : Type} (e : exn) (o : option A) : res A :=
  match o with Some a => Ok a | None => Err e end.

(** Python floats. [snat] gives literals. *)
Record sops := SOps {
  sc : Type;
  s0 : sc; s1 : sc;
  sadd : sc -> sc -> sc;
  ssub : sc -> sc -> sc;
  smul : sc -> sc -> sc;
  sdiv : sc -> sc -> sc;
  sopp : sc -> sc;
  sltb : sc -> sc -> bool;
  sleb : sc -> sc -> bool;
  seqb : sc -> sc -> bool;
  ssqrt : sc -> sc;
  sexp : sc -> sc;
  slog : sc -> sc;
  snat : nat -> sc
}.

(** [x ** k] for a literal natural exponent. *)
Fixpoint spow (o : sops) (x : sc o) (k : nat) : sc o :=
  match k with
  | 0 => s1 o
  | 1 => x
  | S k' => smul o x (spow o x k')
  end.

(** NumPy 2-D arrays; [M m n] are the arrays of shape (m, n).  [mget] and [mfun]
    read and build arrays entry by entry. *)
Record nops := NOps {
  so :> sops;
  M : nat -> nat -> Type;
  mdot : forall {m n p : nat}, M m n -> M n p -> M m p;
  madd : forall {m n : nat}, M m n -> M m n -> M m n;
  msub : forall {m n : nat}, M m n -> M m n -> M m n;
  mscale : forall {m n : nat}, sc so -> M m n -> M m n;
  mdivs : forall {m n : nat}, M m n -> sc so -> M m n;
  mtr : forall {m n : nat}, M m n -> M n m;
  meye : forall n : nat, M n n;
  mzeros : forall m n : nat, M m n;
  mget : forall {m n : nat}, M m n -> nat -> nat -> sc so;
  mfun : forall m n : nat, (nat -> nat -> sc so) -> M m n
}.
Arguments mdot {_ m n p} _ _.
Arguments madd {_ m n} _ _.
Arguments msub {_ m n} _ _.
Arguments mscale {_ m n} _ _.
Arguments mdivs {_ m n} _ _.
Arguments mtr {_ m n} _.
Arguments meye {_} n.
Arguments mzeros {_} m n.
Arguments mget {_ m n} _ _ _.
Arguments mfun {_} m n _.

Declare Scope np_scope.
Delimit Scope np_scope with np.
Notation "A '@' B" := (mdot A B) (at level 40, left associativity) : np_scope.
Notation "A + B" := (madd A B) : np_scope.
Notation "A - B" := (msub A B) : np_scope.
Notation "A ^T" := (mtr A) (at level 8, format "A ^T") : np_scope.

(** Arguments that may be a scalar or a matrix ([isscalar(Q)] in the code). *)
Inductive sm (o : nops) (n : nat) : Type :=
| Scal (s : sc o)
| Mat (A : M o n n).
Arguments Scal {o n} s.
Arguments Mat {o n} A.

(** [None] -> default; scalar -> [eye(n) * s]; matrix -> itself. *)
Definition sm_or {o : nops} {n : nat} (d : M o n n) (a : option (sm o n)) : M o n n :=
  match a with
  | None => d
  | Some (Scal s) => mscale s (meye n)
  | Some (Mat A) => A
  end.

Definition opt_or {A : Type} (d : A) (a : option A) : A :=
  match a with None => d | Some v => v end.

(** Python list item assignment [l[k] = v] (no effect out of range: callers
    check the range first). *)
Fixpoint set_nth {A : Type} (l : list A) (k : nat) (v : A) : list A :=
  match l, k with
  | [], _ => []
  | _ :: t, 0 => v :: t
  | a :: t, S k' => a :: set_nth t k' v
  end.

(** Slices of matrices, [A[r:r+m, c:c+n]]. *)
Definition mslice {o : nops} {p q : nat} (A : M o p q) (r c m n : nat) : M o m n :=
  mfun m n (fun i j => mget A (r + i) (c + j)).

(** [A[r:r+m, c:c+n] = V]. *)
Definition mwrite {o : nops} {p q m n : nat} (A : M o p q) (r c : nat) (V : M o m n) : M o p q :=
  mfun p q (fun i j =>
    if (r <=? i) && (i <? r + m) && (c <=? j) && (j <? c + n)
    then mget V (i - r) (j - c) else mget A i j).

(** Elementwise map. *)
Definition mmap {o : nops} {p q : nat} (f : sc o -> sc o) (A : M o p q) : M o p q :=
  mfun p q (fun i j => f (mget A i j)).

(** A column vector as the list of its entries. *)
Definition col_list {o : nops} {m : nat} (v : M o m 1) : list (sc o) :=
  map (fun i => mget v i 0) (seq 0 m).
