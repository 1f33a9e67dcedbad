(** * Model of monte_carlo/resampling.py.

    Random draws are arguments: [random()] gives [u], [random(N)] gives [us].  numpy.floor followed by astype(int) is
    [ffloor], numpy.searchsorted (side 'left') is [ss], from the sorted array and all the keys to their places.
    Weights are lists of floats.  Indexes are int32 in the code, naturals here. *)
From Coq Require Import List Arith Bool ZArith.
From Verif Require Import Ops Model_DB.
Import ListNotations.
Set Implicit Arguments.
Unset Strict Implicit.

Section Resample.
Variable o : sops.
Notation V := (list (sc o)).

(** numpy.cumsum. *)
Fixpoint cumsum_from (acc : sc o) (w : V) : V :=
  match w with
  | [] => []
  | a :: r => let acc := sadd o acc a in acc :: cumsum_from acc r
  end.
Definition cumsum (w : V) : V := match w with [] => [] | a :: r => a :: cumsum_from a r end.

(** The loop of stratified_resample and systematic_resample (107-113, 143-149): [pos] is positions[i:], [cs] is
    cumulative_sum[j:].  Reading cumulative_sum[N] raises IndexError. *)
Fixpoint walk (pos : V) : V -> nat -> res (list nat) :=
  fix inner (cs : V) (j : nat) : res (list nat) :=
  match pos with
  | [] => Ok []
  | p :: pos' =>
      match cs with
      | [] => Err IndexError
      | c :: cs' => if sltb o p c then rmap (cons j) (walk pos' cs j) else inner cs' (S j)
      end
  end.

(** positions (103): (random(N) + range(N)) / N. *)
Definition strat_positions (us : V) (N : nat) : V :=
  map (fun p => sdiv o (sadd o (fst p) (snat o (snd p))) (snat o N)) (combine us (seq 0 N)).
(** stratified_resample (80-114). *)
Definition stratified_resample (weights us : V) : res (list nat) :=
  let N := length weights in walk (strat_positions us N) (cumsum weights) 0.

(** positions (139): (random() + arange(N)) / N. *)
Definition syst_positions (u : sc o) (N : nat) : V :=
  map (fun i => sdiv o (sadd o u (snat o i)) (snat o N)) (seq 0 N).
(** systematic_resample (117-150). *)
Definition systematic_resample (weights : V) (u : sc o) : res (list nat) :=
  let N := length weights in walk (syst_positions u N) (cumsum weights) 0.

Variable ss : V -> V -> list nat.

(** cumulative_sum[-1] = 1. *)
Fixpoint set_last (l : V) (v : sc o) : V :=
  match l with [] => [] | [_] => [v] | a :: r => a :: set_last r v end.

(** multinomial_resample (153-176); [us] has one draw per weight.  With no weights cumulative_sum[-1] raises. *)
Definition multinomial_resample (weights us : V) : res (list nat) :=
  match weights with
  | [] => Err IndexError
  | _ => Ok (ss (set_last (cumsum weights) (s1 o)) us)
  end.

Variable ffloor : sc o -> Z.
Definition szof (z : Z) : sc o := if (z <? 0)%Z then sopp o (snat o (Z.to_nat (- z))) else snat o (Z.to_nat z).

(** num_copies (61). *)
Definition num_copies (weights : V) : list Z :=
  map (fun w => ffloor (smul o (snat o (length weights)) w)) weights.
(** The copies written by the double loop (62-66): range of a negative number is empty. *)
Fixpoint copies_from (i : nat) (num : list Z) : list nat :=
  match num with [] => [] | c :: r => repeat i (Z.to_nat c) ++ copies_from (S i) r end.
(** residual (70-71): note weights, not N * weights. *)
Definition residual (weights : V) : V :=
  let r := map (fun p => ssub o (fst p) (szof (snd p))) (combine weights (num_copies weights)) in
  let s := pysum r in map (fun a => sdiv o a s) r.
(** residual_resample (27-76); [us] are the draws for the remaining places.  Writing a copy past the end raises. *)
Definition residual_resample (weights us : V) : res (list nat) :=
  let N := length weights in
  let copies := copies_from 0 (num_copies weights) in
  if (N <? length copies)%nat then Err IndexError else
  match weights with
  | [] => Err IndexError
  | _ => Ok (copies ++ ss (set_last (cumsum (residual weights)) (s1 o)) us)
  end.
End Resample.

(** numpy's binary search for one key (numpy's loop also reuses the bounds of the previous key, which for sorted arrays
    makes no difference): places [lo, hi). *)
Section BinSearch.
Variable o : sops.
Fixpoint bsearch (fuel : nat) (a : list (sc o)) (key : sc o) (lo hi : nat) : nat :=
  match fuel with
  | 0 => lo
  | S fuel =>
      if (lo <? hi)%nat then
        let mid := (lo + (hi - lo) / 2)%nat in
        if sltb o (nth mid a (s0 o)) key then bsearch fuel a key (S mid) hi else bsearch fuel a key lo mid
      else lo
  end.
Definition searchsorted (a keys : list (sc o)) : list nat := map (fun k => bsearch (S (length a)) a k 0 (length a)) keys.
End BinSearch.
