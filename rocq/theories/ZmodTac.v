(** * A reflexive tactic for identities in abelian groups, and [mxring], which
    distributes matrix products and transposes first.  No model content. *)
From mathcomp Require Import all_ssreflect all_algebra.
Set Implicit Arguments.
Unset Strict Implicit.
Unset Printing Implicit Defensive.
Import Order.TTheory GRing.Theory Num.Theory.
Local Open Scope ring_scope.

Inductive zexpr := ZA of nat | ZAdd of zexpr & zexpr | ZOpp of zexpr | ZZero.

Section Z.
Variable V : zmodType.
Variable env : seq V.

Fixpoint zden (e : zexpr) : V :=
  match e with
  | ZA i => nth 0 env i
  | ZAdd a b => zden a + zden b
  | ZOpp a => - zden a
  | ZZero => 0
  end.

Fixpoint ladd (a b : seq int) : seq int :=
  match a, b with
  | [::], _ => b
  | _, [::] => a
  | x :: a', y :: b' => (x + y)%R :: ladd a' b'
  end.
Fixpoint lat (i : nat) : seq int := match i with 0%N => [:: 1] | S i' => 0 :: lat i' end.
Fixpoint lopp (a : seq int) : seq int := match a with [::] => [::] | x :: a' => - x :: lopp a' end.

Fixpoint znorm (e : zexpr) : seq int :=
  match e with
  | ZA i => lat i
  | ZAdd a b => ladd (znorm a) (znorm b)
  | ZOpp a => lopp (znorm a)
  | ZZero => [::]
  end.

Fixpoint lden (env : seq V) (l : seq int) : V :=
  match l with
  | [::] => 0
  | c :: l' => head 0 env *~ c + lden (behead env) l'
  end.

Lemma lden_add (ev : seq V) a b : lden ev (ladd a b) = lden ev a + lden ev b.
Proof.
elim: a b ev => [|x a IH] [|y b] ev /=; rewrite ?add0r ?addr0 //.
by rewrite IH mulrzDl addrACA.
Qed.
Lemma lden_opp (ev : seq V) a : lden ev (lopp a) = - lden ev a.
Proof. by elim: a ev => [|x a IH] ev /=; rewrite ?oppr0 // IH mulrNz opprD. Qed.
Lemma lden_at (ev : seq V) i : lden ev (lat i) = nth 0 ev i.
Proof.
elim: i ev => [|i IH] [|v ev] /=; rewrite ?addr0 ?mulr1z ?IH ?mulr0z ?add0r ?nth_nil //.
Qed.
Lemma znormP e : zden e = lden env (znorm e).
Proof.
elim: e => [i|a IHa b IHb|a IHa|] //=;
by rewrite ?lden_at ?lden_add ?lden_opp ?IHa ?IHb.
Qed.

Fixpoint leq0 (a : seq int) : bool :=
  match a with [::] => true | Posz 0 :: a' => leq0 a' | _ => false end.
Lemma leq0P (ev : seq V) a : leq0 a -> lden ev a = 0.
Proof. by elim: a ev => [//|[[|x]|x] a IH] ev //= /IH ->; rewrite mulr0z addr0. Qed.

Lemma zdecide e1 e2 : leq0 (znorm (ZAdd e1 (ZOpp e2))) -> zden e1 = zden e2.
Proof.
move/(leq0P env); rewrite -znormP /= => /eqP; rewrite subr_eq0 => /eqP. by [].
Qed.
End Z.

Ltac z_same x y :=
  first [constr_eq x y
        | with_strategy opaque [mulmx trmx invmx scalar_mx row_mx col_mx block_mx bigop] (unify x y)].
Ltac z_idx x l :=
  lazymatch l with
  | cons ?y ?t =>
    match goal with
    | _ => let _ := match goal with _ => z_same x y end in constr:(O)
    | _ => let i := z_idx x t in constr:(S i)
    end
  end.
Ltac z_mem x l :=
  lazymatch l with
  | nil => constr:(false)
  | cons ?y ?t =>
    match goal with
    | _ => let _ := match goal with _ => z_same x y end in constr:(true)
    | _ => z_mem x t
    end
  end.
Ltac z_atoms V e l :=
  match e with
  | @GRing.add _ ?a ?b => let l := z_atoms V a l in z_atoms V b l
  | @GRing.opp _ ?a => z_atoms V a l
  | @GRing.zero _ => l
  | _ => let b := z_mem e l in
         match b with true => l | false => constr:(@cons V e l) end
  end.
Ltac z_reify e l :=
  match e with
  | @GRing.add _ ?a ?b => let a := z_reify a l in let b := z_reify b l in constr:(ZAdd a b)
  | @GRing.opp _ ?a => let a := z_reify a l in constr:(ZOpp a)
  | @GRing.zero _ => constr:(ZZero)
  | _ => let i := z_idx e l in constr:(ZA i)
  end.
(** Prove an equation valid in every abelian group. *)
Ltac zmod :=
  match goal with
  | |- @eq ?T ?a ?b =>
    let l := z_atoms T a (@nil T) in
    let l := z_atoms T b l in
    let ea := z_reify a l in
    let eb := z_reify b l in
    refine (@zdecide _ l ea eb _); vm_compute; reflexivity
  end.

Section MxSimp.
Variable R : realFieldType.
Lemma trmxM m n p (A : 'M[R]_(m,n)) (B : 'M[R]_(n,p)) : (A *m B)^T = B^T *m A^T.
Proof. exact: trmx_mul. Qed.
Lemma trmxD m n (A B : 'M[R]_(m,n)) : (A + B)^T = A^T + B^T. Proof. exact: linearD. Qed.
Lemma trmxB m n (A B : 'M[R]_(m,n)) : (A - B)^T = A^T - B^T. Proof. exact: linearB. Qed.
Lemma trmxN m n (A : 'M[R]_(m,n)) : (- A)^T = - A^T. Proof. exact: linearN. Qed.
Lemma trmxZ m n a (A : 'M[R]_(m,n)) : (a *: A)^T = a *: A^T. Proof. exact: linearZ. Qed.
Lemma scalemxAl' m n p a (A : 'M[R]_(m,n)) (B : 'M_(n,p)) : a *: A *m B = a *: (A *m B).
Proof. by rewrite scalemxAl. Qed.
Lemma scalemxAr' m n p a (A : 'M[R]_(m,n)) (B : 'M_(n,p)) : A *m (a *: B) = a *: (A *m B).
Proof. by rewrite scalemxAr. Qed.
Lemma addmxE m n (A B : 'M[R]_(m,n)) i j : (A + B) i j = A i j + B i j. Proof. by rewrite mxE. Qed.
Lemma submxE m n (A B : 'M[R]_(m,n)) i j : (A - B) i j = A i j - B i j. Proof. by rewrite !mxE. Qed.
Lemma oppmxE m n (A : 'M[R]_(m,n)) i j : (- A) i j = - A i j. Proof. by rewrite mxE. Qed.
Lemma scalemxE m n a (A : 'M[R]_(m,n)) i j : (a *: A) i j = a * A i j. Proof. by rewrite mxE. Qed.
End MxSimp.
Definition emxE := (addmxE, submxE, oppmxE, scalemxE).

(** Distribute everything; left-associate products. *)
Ltac mxsimp :=
  rewrite ?(trmxD, trmxB, trmxN, trmxZ, trmxM, trmx1, trmx0, trmxK,
            mulmxDl, mulmxDr, mulmxBl, mulmxBr, mulmxN, mulNmx, mulmx1, mul1mx,
            mulmx0, mul0mx, scalemxAl', scalemxAr', scalerDr, scalerBr, scalerN, scalerA,
            opprD, opprB, opprK, mulmxA).
Ltac mxring := mxsimp; zmod.
