(** * Vocabulary: attributes that hold references, read as values. *)
From Coq Require Import List Arith.
From Verif Require Import Ops Model_KF Spec_KF Model_Refs.
Import ListNotations.
Set Implicit Arguments.
Unset Strict Implicit.

Section KF.
Context {o : nops} {n m l : nat}.
Notation kf := (kf o n m l).
Notation kf_call := (kf_call o n m l).

(** The program on an object whose attributes are plain values. *)
Definition v_do (a : r_event (o := o) (n := n) (m := m) (l := l)) (v : kf) : kf :=
  match a with RCall c => fst (kf_step c v) | RAssign x | RPoke x => set_kf_x x v | RHeld _ _ => v end.
Definition v_run (es : list r_event) (v : kf) : kf := fold_left (fun v a => v_do a v) es v.

(** The program writes only through references to arrays the filter no longer uses. *)
Fixpoint polite (es : list r_event) (s : rk (o := o) (n := n) (m := m) (l := l)) : Prop :=
  match es with
  | [] => True
  | a :: es => match a with RHeld p _ => p <> r_x s /\ p <> r_xprior s /\ p <> r_xpost s | _ => True end /\ polite es (r_do a s)
  end.

(** x has an array of its own. *)
Definition separated (s : rk (o := o) (n := n) (m := m) (l := l)) : Prop :=
  r_x s < length (r_hx s) /\ r_xprior s < length (r_hx s) /\ r_xpost s < length (r_hx s) /\
  r_y s < length (r_hy s) /\ r_K s < length (r_hK s) /\ r_x s <> r_xprior s /\ r_x s <> r_xpost s.

Definition sequential (c : kf_call) : bool := match c with CUpdateSeq _ _ _ _ _ _ => true | _ => false end.

(** The array a program assigned to kf.x follows the filter as long as no call computes a
    new x: a prediction does, and so does an update with a measurement, update_sequential excepted. *)
Definition new_x (c : kf_call) (e : option exn) : bool :=
  is_predict c ||
  match c, e with
  | CUpdate (Some _) _ _, None | CUpdateCorr (Some _) _ _, None | CUpdateSS (Some _), _ => true
  | _, _ => false
  end.
Fixpoint follows (cs : list kf_call) (v : kf) : M o n 1 :=
  match cs with
  | [] => kf_x v
  | c :: cs => if new_x c (snd (kf_step c v)) then kf_x v else follows cs (fst (kf_step c v))
  end.
End KF.

(** The states a filter goes through. *)
Fixpoint trace {St C : Type} (step : C -> St -> St) (cl : list C) (s : St) : list St :=
  match cl with [] => [] | c :: cl => step c s :: trace step cl (step c s) end.

(** The calls that went to the first ([false]) or second object. *)
Definition one {C : Type} (i : bool) (cl : list (bool * C)) : list C :=
  map snd (List.filter (fun c => Bool.eqb (fst c) i) cl).
