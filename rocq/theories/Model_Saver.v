(** * filterpy/common/helpers.py: Saver (27-219)

    Python objects hold references: an attribute is an immediate value (number, None, function) or
    a reference to an array, which other attributes may share and which can be changed in place.
    Arrays live in a heap; their contents are lists of immediates.  deepcopy copies every array it
    meets (its memo, which keeps two attributes sharing one array sharing the copy, has no effect
    on what is read and is not modelled; neither are nested containers).  to_array and
    flatten are in Model_Helpers.v.  Not modelled: __setitem__, attribute names that clash with the Saver's own (_kf, _DL, _len, ...). *)
From Coq Require Import String Ascii List Arith Bool.
Import ListNotations.
Set Implicit Arguments.
Unset Strict Implicit.

Section Saver.
Variable A : Type.
Variable callable : A -> bool.

Inductive val := Imm (a : A) | Ref (p : nat).
Definition heap := list (list A).
Definition dict := list (string * val).

Fixpoint get (d : dict) (k : string) : option val :=
  match d with [] => None | (k', v) :: t => if String.eqb k k' then Some v else get t k end.
Fixpoint del (d : dict) (k : string) : dict :=
  match d with [] => [] | (k', v) :: t => if String.eqb k k' then del t k else (k', v) :: del t k end.
(** d[k] = v; the position of a key is not observable here. *)
Definition set (d : dict) (k : string) (v : val) : dict := (k, v) :: del d k.

Fixpoint upd {B : Type} (l : list B) (i : nat) (b : B) : list B :=
  match l, i with [], _ => [] | _ :: t, 0 => b :: t | x :: t, S j => x :: upd t j b end.

(** The filter: the heap and the object's __dict__. *)
Record st := mkSt { s_heap : heap; s_dict : dict }.

(** What code running on the filter can do to it: bind an attribute to an immediate, to a new array,
    to the object another attribute holds; change an array in place; delete an attribute. *)
Inductive act :=
| SetImm (k : string) (a : A) | SetNew (k : string) (c : list A) | SetAlias (k k' : string)
| Poke (k : string) (c : list A) | Del (k : string).
Definition do_act (s : st) (a : act) : st :=
  match a with
  | SetImm k a => mkSt (s_heap s) (set (s_dict s) k (Imm a))
  | SetNew k c => mkSt (s_heap s ++ [c]) (set (s_dict s) k (Ref (length (s_heap s))))
  | SetAlias k k' => match get (s_dict s) k' with Some v => mkSt (s_heap s) (set (s_dict s) k v) | None => s end
  | Poke k c => match get (s_dict s) k with Some (Ref p) => mkSt (upd (s_heap s) p c) (s_dict s) | _ => s end
  | Del k => mkSt (s_heap s) (del (s_dict s) k)
  end.

(** A property of the filter's class: the getter may change the filter (lazily computed
    likelihoods store their value) and returns an immediate, a new array or the very object an
    attribute holds (InformationFilter.F, information_filter.py:365-368: [return self._F]). *)
Inductive ret := RImm (a : A) | RNew (c : list A) | RAlias (k : string).
Record prop := mkProp { p_name : string; p_acts : st -> list act; p_ret : st -> ret }.
(** getattr(kf, name); an alias of a missing attribute (AttributeError) is not modelled: None. *)
Definition getattr (p : prop) (s : st) : st * option val :=
  let s := fold_left do_act (p_acts p s) s in
  match p_ret p s with
  | RImm a => (s, Some (Imm a))
  | RNew c => (mkSt (s_heap s ++ [c]) (s_dict s), Some (Ref (length (s_heap s))))
  | RAlias k => (s, get (s_dict s) k)
  end.

(** The saver: _DL (a defaultdict(list): a missing key is the empty list), _len and its settings. *)
Record saver := mkSaver {
  v_DL : list (string * list val); v_len : nat;
  v_props : list prop; v_skip_private : bool; v_skip_callable : bool; v_ignore : list string }.
Fixpoint look (d : list (string * list val)) (k : string) : list val :=
  match d with [] => [] | (k', v) :: t => if String.eqb k k' then v else look t k end.
(** self._DL[k].append(v) *)
Fixpoint append (d : list (string * list val)) (k : string) (v : val) : list (string * list val) :=
  match d with
  | [] => [(k, [v])]
  | (k', l) :: t => if String.eqb k k' then (k', l ++ [v]) :: t else (k', l) :: append t k v
  end.

Definition mem (k : string) (l : list string) : bool := existsb (String.eqb k) l.
(** Saver.__init__ (96-119) before the optional save; [props] are the properties of type(kf). *)
Definition saver_init (props : list prop) (skip_private skip_callable : bool) (ignore : list string) : saver :=
  mkSaver [] 0 (filter (fun p => negb (mem (p_name p) ignore)) props) skip_private skip_callable ignore.

(** copy.deepcopy(kf.__dict__) *)
Definition copy_val (h : heap) (v : val) : heap * val :=
  match v with Imm a => (h, Imm a) | Ref p => (h ++ [nth p h []], Ref (length h)) end.
Fixpoint deepcopy (h : heap) (d : dict) : heap * dict :=
  match d with
  | [] => (h, [])
  | (k, v) :: t => let (h, v') := copy_val h v in let (h, t') := deepcopy h t in (h, (k, v') :: t')
  end.

(** key.startswith("_"); callable(v[key]) (arrays are not callable). *)
Definition private (k : string) : bool := match k with String c _ => Ascii.eqb c "_"%char | EmptyString => false end.
Definition is_callable (v : val) : bool := match v with Imm a => callable a | Ref _ => false end.

(** The loop over the properties (129-130). *)
Definition save_props (ps : list prop) (s : st) (DL : list (string * list val)) : st * list (string * list val) :=
  fold_left (fun (x : st * list (string * list val)) p =>
    let (s, v) := getattr p (fst x) in
    (s, match v with Some v => append (snd x) (p_name p) v | None => snd x end)) ps (s, DL).

(** Saver.save (121-152). *)
Definition save (v : saver) (s : st) : saver * st :=
  let (s, DL) := save_props (v_props v) s (v_DL v) in
  let (h, d) := deepcopy (s_heap s) (s_dict s) in
  let d := if v_skip_private v then filter (fun kv => negb (private (fst kv))) d else d in
  let d := if v_skip_callable v then filter (fun kv => negb (is_callable (snd kv))) d else d in
  let d := fold_left del (v_ignore v) d in
  let DL := fold_left (fun DL kv => append DL (fst kv) (snd kv)) d DL in
  (mkSaver DL (S (v_len v)) (v_props v) (v_skip_private v) (v_skip_callable v) (v_ignore v), mkSt h (s_dict s)).

(** A program: changes of the filter and calls of save. *)
Inductive event := Act (a : act) | Save.
Definition step (x : saver * st) (e : event) : saver * st :=
  match e with Act a => (fst x, do_act (snd x) a) | Save => save (fst x) (snd x) end.
Definition run (h : list event) (x : saver * st) : saver * st := fold_left step h x.
End Saver.
