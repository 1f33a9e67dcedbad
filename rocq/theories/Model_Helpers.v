(** * filterpy/common/helpers.py: compare_kf, copy_states (440-506), Saver.to_array and
      Saver.flatten (169-215) *)
From Coq Require Import String Ascii List Arith Bool.
From Verif Require Import Ops Model_Saver.
Import ListNotations.
Set Implicit Arguments.
Unset Strict Implicit.

Section Copy.
Variable A : Type.
(** [type(val).__name__ in ["method", "function"]] for an immediate value. *)
Variable is_fun : A -> bool.

(** Two objects over one heap. *)
Record two := mkTwo { t_heap : heap A; t_dst : dict A; t_src : dict A }.

(** One round of the loop (501-504).  Simplification: [getattr(src, key)] is the entry of the
    instance dictionary (a property of the same name would shadow it). *)
Definition copy_one (t : two) (key : string) : two :=
  match get (t_src t) key with
  | None => t
  | Some (Imm a) => if is_fun a then t else mkTwo (t_heap t) (Model_Saver.set (t_dst t) key (Imm a)) (t_src t)
  | Some v => let '(h, v') := copy_val (t_heap t) v in mkTwo h (Model_Saver.set (t_dst t) key v') (t_src t)
  end.
(** copy_states (474-506).  A Python set is iterated in an unspecified order: [attrs] is the order
    met, an enumeration of the keys common to both dictionaries. *)
Definition copy_states (attrs : list string) (t : two) : two := fold_left copy_one attrs t.
End Copy.

Section Compare.
Variable V : Type.
(** [np.allclose(a, b)]: it raises TypeError on values that are not numeric. *)
Variable allclose : V -> V -> res bool.
Fixpoint lookup (d : list (string * V)) (k : string) : option V :=
  match d with [] => None | (k', v) :: t => if String.eqb k k' then Some v else lookup t k end.
(** The loop of compare_kf (455-465); a KeyError cannot happen, [attrs] being common keys. *)
Fixpoint different_keys (d1 d2 : list (string * V)) (attrs : list string) : res (list string) :=
  match attrs with
  | [] => Ok []
  | k :: ks =>
      if private k then different_keys d1 d2 ks else
      match lookup d1 k, lookup d2 k with
      | Some a, Some b =>
          rbind (allclose a b) (fun c => rbind (different_keys d1 d2 ks) (fun l => Ok (if c then l else k :: l)))
      | _, _ => Err KeyError
      end
  end.
(** compare_kf (440-471): line 468 returns [different], a name that is bound nowhere. *)
Definition compare_kf (d1 d2 : list (string * V)) (attrs : list string) : res (option (list string)) :=
  rbind (different_keys d1 d2 attrs) (fun l => if 0 <? length l then Err NameError else Ok None).
End Compare.

Section View.
Variable B : Type.
(** An ndarray: shape, and entries in row-major order. *)
Record nda := Nda { a_shape : list nat; a_data : list B }.
(** [np.array] of a list of saved values; None when they cannot be stacked (it raises). *)
Variable np_array_of : list (list B) -> option nda.

(** An attribute of the Saver: the list of saved values, or an array made from it. *)
Inductive view := VList (l : list (list B)) | VArr (a : nda).
(** The saved lists [_DL], keys in order of first appearance, and the Saver's [__dict__] entries. *)
Record sv := mkSv { sv_DL : list (string * list (list B)); sv_dict : list (string * view) }.

Fixpoint vget (d : list (string * view)) (k : string) : option view :=
  match d with [] => None | (k', v) :: t => if String.eqb k k' then Some v else vget t k end.
Definition vset (d : list (string * view)) (k : string) (v : view) : list (string * view) := (k, v) :: d.
(** [self.__dict__.update(self._DL)]. *)
Definition vupdate (d : list (string * view)) (DL : list (string * list (list B))) : list (string * view) :=
  fold_left (fun d kl => vset d (fst kl) (VList (snd kl))) DL d.

Fixpoint dl_append (DL : list (string * list (list B))) (k : string) (v : list B) : list (string * list (list B)) :=
  match DL with
  | [] => [(k, [v])]
  | (k', l) :: t => if String.eqb k k' then (k', l ++ [v]) :: t else (k', l) :: dl_append t k v
  end.
(** save (129-152) for the attribute values met, as in Model_Saver.v. *)
Definition sv_save (vals : list (string * list B)) (s : sv) : sv :=
  let DL := fold_left (fun DL kv => dl_append DL (fst kv) (snd kv)) vals (sv_DL s) in
  mkSv DL (vupdate (sv_dict s) DL).

(** flatten on one array (197-213): shape[2] raises IndexError for fewer than three axes, and a
    reshape of the wrong size ValueError; both are caught and leave the attribute as it is. *)
Definition prod (l : list nat) : nat := fold_right Nat.mul 1 l.
Definition flatten_arr (a : nda) : nda :=
  match a_shape a with
  | n :: k :: c :: rest =>
      let reshaped := if c =? 1 then (if prod (a_shape a) =? n * k then Some (Nda [n; k] (a_data a)) else None) else Some a in
      match reshaped with
      | None => a
      | Some b => match a_shape b with [n; 1] => Nda [n * 1] (a_data b) | _ => b end
      end
  | _ => a
  end.
Definition sv_flatten (s : sv) : sv :=
  mkSv (sv_DL s) (fold_left (fun d kl => match vget d (fst kl) with
                                        | Some (VArr a) => vset d (fst kl) (VArr (flatten_arr a))
                                        | _ => d end) (sv_DL s) (sv_dict s)).

(** to_array (169-190). *)
Fixpoint convert (DL : list (string * list (list B))) (d : list (string * view)) : option (list (string * view)) :=
  match DL with
  | [] => Some d
  | (k, l) :: t => match np_array_of l with Some a => convert t (vset d k (VArr a)) | None => None end
  end.
Definition sv_to_array (flatten : bool) (s : sv) : sv * option exn :=
  match convert (sv_DL s) (sv_dict s) with
  | Some d => let s := mkSv (sv_DL s) d in (if flatten then sv_flatten s else s, None)
  | None => (mkSv (sv_DL s) (vupdate (sv_dict s) (sv_DL s)), Some ValueError)
  end.
End View.
