(** C64: copying and comparing filters.  C65: turning saved lists into arrays and back. *)
From Coq Require Import String Ascii List Arith Bool Lia.
From Verif Require Import Ops Model_Saver Model_Helpers Prop_Saver.
Import ListNotations.
Local Arguments Model_Saver.set : simpl never.

(** ** C64 *)
Section Copy.
Variable A : Type.
Variable is_fun : A -> bool.
Notation two := (two A).

(** What reading attribute [k] of each object gives. *)
Definition dst_attr (t : two) (k : string) : option (A + list A) := option_map (read A (t_heap t)) (get (t_dst t) k).
Definition src_attr (t : two) (k : string) : option (A + list A) := option_map (read A (t_heap t)) (get (t_src t) k).
Definition refs_ok (h : heap A) (d : dict A) : Prop := forall k p, get d k = Some (Ref A p) -> p < length h.
Definition funny (x : A + list A) : bool := match x with inl a => is_fun a | inr _ => false end.

Definition copied (l : list string) (t t' : two) : Prop :=
  t_src t' = t_src t /\ (exists e, t_heap t' = t_heap t ++ e) /\
  (forall k, ~ In k l -> get (t_dst t') k = get (t_dst t) k) /\
  (forall k, In k l -> match get (t_src t) k with
     | None => get (t_dst t') k = get (t_dst t) k
     | Some (Imm a) => get (t_dst t') k = if is_fun a then get (t_dst t) k else Some (Imm a)
     | Some (Ref _ p) => exists q, length (t_heap t) <= q < length (t_heap t') /\ get (t_dst t') k = Some (Ref A q) /\
                         nth q (t_heap t') [] = nth p (t_heap t) []
     end) /\
  (forall k k' q, k <> k' -> length (t_heap t) <= q -> get (t_dst t') k = Some (Ref A q) -> get (t_dst t') k' <> Some (Ref A q)).

Lemma copy_one_spec (t : two) (k : string) : refs_ok (t_heap t) (t_src t) -> refs_ok (t_heap t) (t_dst t) ->
  copied [k] t (copy_one is_fun t k) /\ refs_ok (t_heap (copy_one is_fun t k)) (t_dst (copy_one is_fun t k)).
Proof.
  intros ws wd. unfold copy_one. destruct (get (t_src t) k) as [[a|p]|] eqn:E.
  - destruct (is_fun a) eqn:F.
    + split; [|exact wd]. split; [reflexivity|split; [exists []; rewrite app_nil_r; reflexivity|split; [reflexivity|split]]].
      * intros k' [<-|[]]. rewrite E, F. reflexivity.
      * intros k1 k2 q _ hq h. apply wd in h. lia.
    + split; cbn.
      * split; [reflexivity|split; [exists []; rewrite app_nil_r; reflexivity|split; [|split]]]; cbn.
        { intros k' ni. rewrite get_set. rewrite eqb_neq'; [reflexivity|]. intros ->; apply ni; left; reflexivity. }
        { intros k' [<-|[]]. rewrite E, F, get_set, String.eqb_refl. reflexivity. }
        { intros k1 k2 q _ hq. rewrite !get_set. destruct (String.eqb k1 k); [discriminate|].
          intros h; apply wd in h; lia. }
      * intros k' p. rewrite get_set. destruct (String.eqb k' k); [discriminate|apply wd].
  - cbn. assert (hp := ws _ _ E). split.
    + split; [reflexivity|split; [exists [nth p (t_heap t) []]; reflexivity|split; [|split]]]; cbn.
      * intros k' ni. rewrite get_set. rewrite eqb_neq'; [reflexivity|]. intros ->; apply ni; left; reflexivity.
      * intros k' [<-|[]]. rewrite E. exists (length (t_heap t)). rewrite get_set, String.eqb_refl, app_length. cbn.
        split; [lia|split; [reflexivity|]]. rewrite app_nth2 by lia. rewrite Nat.sub_diag. reflexivity.
      * intros k1 k2 q ne hq. rewrite !get_set.
        destruct (String.eqb_spec k1 k) as [->|n1]; [|intros h; apply wd in h; lia].
        intros [= <-]. rewrite eqb_neq' by congruence. intros h; apply wd in h; lia.
    + intros k' q. cbn. rewrite get_set, app_length. cbn. destruct (String.eqb k' k); [intros [= <-]; lia|].
      intros h; apply wd in h; lia.
  - split; [|exact wd]. split; [reflexivity|split; [exists []; rewrite app_nil_r; reflexivity|split; [reflexivity|split]]].
    + intros k' [<-|[]]. rewrite E. reflexivity.
    + intros k1 k2 q _ hq h. apply wd in h. lia.
Qed.

Lemma copied_spec (l : list string) : forall t : two, refs_ok (t_heap t) (t_src t) -> refs_ok (t_heap t) (t_dst t) ->
  copied l t (copy_states is_fun l t) /\ refs_ok (t_heap (copy_states is_fun l t)) (t_dst (copy_states is_fun l t)).
Proof.
  induction l as [|k l IH]; intros t ws wd.
  - cbn. split; [|exact wd]. split; [reflexivity|split; [exists []; rewrite app_nil_r; reflexivity|split; [reflexivity|split]]].
    + intros k [].
    + intros k1 k2 q _ hq h. apply wd in h. lia.
  - change (copy_states is_fun (k :: l) t) with (copy_states is_fun l (copy_one is_fun t k)).
    destruct (copy_one_spec t k ws wd) as [[s1 [[e1 h1] [n1 [i1 f1]]]] w1]. set (t1 := copy_one is_fun t k) in *.
    assert (ws1 : refs_ok (t_heap t1) (t_src t1)) by (intros k' p h; rewrite s1 in h; apply ws in h; rewrite h1, app_length; lia).
    destruct (IH t1 ws1 w1) as [[s2 [[e2 h2] [n2 [i2 f2]]]] w2]. set (t2 := copy_states is_fun l t1) in *.
    assert (L : length (t_heap t1) = length (t_heap t) + length e1) by (rewrite h1, app_length; reflexivity).
    split; [|exact w2]. split; [congruence|split; [exists (e1 ++ e2); rewrite h2, h1, app_assoc; reflexivity|split; [|split]]].
    + intros k' ni. cbn in ni. rewrite n2 by tauto. apply n1. cbn. tauto.
    + intros k' hi. destruct (in_dec string_dec k' l) as [il|nl].
      * specialize (i2 k' il). rewrite s1 in i2. destruct (get (t_src t) k') as [[a|p]|] eqn:E.
        { rewrite i2. destruct (is_fun a) eqn:Fa; [|reflexivity].
          destruct (string_dec k' k) as [->|ne]; [|apply n1; cbn; intros [x|[]]; congruence].
          specialize (i1 k (or_introl eq_refl)). rewrite E, Fa in i1. exact i1. }
        { destruct i2 as [q [hq [gq cq]]]. exists q. split; [lia|split; [exact gq|]]. rewrite cq.
          rewrite h1, app_nth1; [reflexivity|]. exact (ws _ _ E). }
        { rewrite i2. destruct (string_dec k' k) as [->|ne]; [|apply n1; cbn; intros [x|[]]; congruence].
          specialize (i1 k (or_introl eq_refl)). rewrite E in i1. exact i1. }
      * destruct hi as [->|hi]; [|contradiction]. rewrite (n2 _ nl). specialize (i1 k' (or_introl eq_refl)).
        destruct (get (t_src t) k') as [[a|p]|]; [exact i1| |exact i1].
        destruct i1 as [q [hq [gq cq]]]. exists q. split; [rewrite h2, app_length; lia|split; [exact gq|]].
        rewrite h2, app_nth1 by lia. exact cq.
    + intros k1 k2 q ne hq g1 g2.
      destruct (Nat.le_gt_cases (length (t_heap t1)) q) as [ge|lt]; [exact (f2 k1 k2 q ne ge g1 g2)|].
      assert (B : forall k', get (t_dst t2) k' = Some (Ref A q) -> get (t_dst t1) k' = Some (Ref A q)).
      { intros k' g. destruct (in_dec string_dec k' l) as [il|nl]; [|rewrite <- (n2 _ nl); exact g].
        specialize (i2 k' il). destruct (get (t_src t1) k') as [[a|p]|].
        - rewrite i2 in g. destruct (is_fun a); [exact g|discriminate].
        - destruct i2 as [q' [hq' [gq _]]]. rewrite gq in g. injection g as ->. lia.
        - rewrite i2 in g. exact g. }
      exact (f1 k1 k2 q ne hq (B _ g1) (B _ g2)).
Qed.

(** Whatever the order in which the common attributes are met: the source reads as before; every
    attribute both objects have, functions excepted, reads in the destination as in the source;
    everything else in the destination reads as before. *)
Theorem C64_copy_states : forall (attrs : list string) (t : two),
  (forall k, In k attrs <-> get (t_dst t) k <> None /\ get (t_src t) k <> None) ->
  refs_ok (t_heap t) (t_src t) -> refs_ok (t_heap t) (t_dst t) ->
  let t' := copy_states is_fun attrs t in
  (forall k, src_attr t' k = src_attr t k) /\
  (forall k, dst_attr t' k =
     match dst_attr t k, src_attr t k with
     | Some d, Some s => if funny s then Some d else Some s
     | d, _ => d
     end).
Proof.
  intros attrs t hk ws wd t'. destruct (copied_spec attrs t ws wd) as [[s1 [[e h] [n1 [i1 _]]]] w1]. fold t' in s1, h, n1, i1, w1.
  assert (R : forall d k, refs_ok (t_heap t) d -> option_map (read A (t_heap t')) (get d k) = option_map (read A (t_heap t)) (get d k)).
  { intros d k w. destruct (get d k) as [[a|p]|] eqn:E; cbn; try reflexivity. rewrite h, app_nth1; [reflexivity|]. exact (w _ _ E). }
  split.
  - intros k. unfold src_attr. rewrite s1. apply R, ws.
  - intros k. unfold dst_attr, src_attr. destruct (in_dec string_dec k attrs) as [i|ni].
    + specialize (i1 k i). apply hk in i. destruct i as [id is_].
      destruct (get (t_dst t) k) as [vd|] eqn:Ed; [|congruence]. destruct (get (t_src t) k) as [[a|p]|] eqn:Es; [| |congruence].
      * rewrite i1. cbn. destruct (is_fun a); [|reflexivity]. rewrite <- Ed. rewrite R by exact wd. rewrite Ed. reflexivity.
      * destruct i1 as [q [hq [gq cq]]]. rewrite gq. cbn. rewrite cq. reflexivity.
    + rewrite (n1 _ ni). rewrite R by exact wd.
      destruct (get (t_dst t) k) as [vd|] eqn:Ed; [|reflexivity]. destruct (get (t_src t) k) eqn:Es; [|reflexivity].
      exfalso; apply ni, hk. rewrite Ed, Es; split; discriminate.
Qed.

Lemma copy_nodup (l : list string) : forall t : two, NoDup (map fst (t_dst t)) -> NoDup (map fst (t_dst (copy_states is_fun l t))).
Proof.
  induction l as [|k l IH]; intros t nd; cbn; [exact nd|]. apply IH.
  unfold copy_one. destruct (get (t_src t) k) as [[a|p]|]; [destruct (is_fun a); [exact nd|]| |exact nd]; cbn; apply nodup_set, nd.
Qed.

(** And the two objects are independent afterwards: whatever is then done to one of them, in-place
    changes included, the other reads as before, provided the arrays they shared before the call
    were held by attributes that both have. *)
Theorem C64_independent : forall (attrs : list string) (t : two) (acts : list (act A)),
  (forall k, In k attrs <-> get (t_dst t) k <> None /\ get (t_src t) k <> None) ->
  refs_ok (t_heap t) (t_src t) -> refs_ok (t_heap t) (t_dst t) ->
  NoDup (map fst (t_dst t)) -> NoDup (map fst (t_src t)) ->
  (forall k p, get (t_dst t) k = Some (Ref A p) -> (exists k', get (t_src t) k' = Some (Ref A p)) ->
     exists q, get (t_src t) k = Some (Ref A q)) ->
  let t' := copy_states is_fun attrs t in
  (forall k, option_map (read A (s_heap (fold_left (@do_act A) acts (mkSt (t_heap t') (t_dst t'))))) (get (t_src t') k) = src_attr t' k) /\
  (forall k, option_map (read A (s_heap (fold_left (@do_act A) acts (mkSt (t_heap t') (t_src t'))))) (get (t_dst t') k) = dst_attr t' k).
Proof.
  intros attrs t acts hk ws wd nd ns dj t'.
  destruct (copied_spec attrs t ws wd) as [[s1 [[e h] [n1 [i1 _]]]] w1]. fold t' in s1, h, n1, i1, w1.
  assert (ws1 : refs_ok (t_heap t') (t_src t')) by (intros k p g; rewrite s1 in g; apply ws in g; rewrite h, app_length; lia).
  assert (D : forall k k' p, get (t_dst t') k = Some (Ref A p) -> get (t_src t') k' = Some (Ref A p) -> False).
  { intros k k' p gd gs. rewrite s1 in gs. assert (hp := ws _ _ gs).
    destruct (in_dec string_dec k attrs) as [i|ni].
    - specialize (i1 k i). apply hk in i. destruct i as [id is_]. destruct (get (t_src t) k) as [[a|q]|] eqn:Es; [| |congruence].
      + rewrite i1 in gd. destruct (is_fun a); [|discriminate]. destruct (dj _ _ gd (ex_intro _ k' gs)) as [q hq]. congruence.
      + destruct i1 as [q' [hq [gq _]]]. rewrite gq in gd. injection gd as ->. lia.
    - rewrite (n1 _ ni) in gd. destruct (dj _ _ gd (ex_intro _ k' gs)) as [q hq]. apply ni, hk. rewrite gd, hq; split; discriminate. }
  assert (N : NoDup (map fst (t_dst t'))) by (apply copy_nodup, nd).
  split; intros k.
  - destruct (acts_ok A acts (mkSt (t_heap t') (t_dst t'))) as [_ [[_ K] _]]; [split; [exact w1|exact N]|].
    unfold src_attr. destruct (get (t_src t') k) as [[a|p]|] eqn:E; cbn; try reflexivity.
    rewrite K; [reflexivity| |exact (ws1 _ _ E)]. split; [exact (ws1 _ _ E)|]. intros k0 g. exact (D _ _ _ g E).
  - destruct (acts_ok A acts (mkSt (t_heap t') (t_src t'))) as [_ [[_ K] _]]; [split; [exact ws1|cbn; rewrite s1; exact ns]|].
    unfold dst_attr. destruct (get (t_dst t') k) as [[a|p]|] eqn:E; cbn; try reflexivity.
    rewrite K; [reflexivity| |exact (w1 _ _ E)]. split; [exact (w1 _ _ E)|]. intros k0 g. exact (D _ _ _ E g).
Qed.
End Copy.
Print Assumptions C64_copy_states.
Print Assumptions C64_independent.

(** Two filters sharing their array x before the call (attribute "f" is a function, "q" is only in
    the destination): afterwards a change of the source's x is not seen in the destination. *)
Definition ex_two : two nat := mkTwo [[1; 2]; [3]] [("x", Ref nat 0); ("f", Imm 7); ("q", Imm 5)]%string [("f", Imm 8); ("x", Ref nat 0); ("P", Ref nat 1)]%string.
Example C64_example :
  let fn a := (6 <=? a) in
  let t := copy_states fn ["f"; "x"]%string ex_two in
  dst_attr nat t "x" = Some (inr [1; 2]) /\ dst_attr nat t "f" = Some (inl 7) /\ dst_attr nat t "q" = Some (inl 5) /\
  dst_attr nat t "P" = None /\
  nth 0 (s_heap (do_act (mkSt (t_heap t) (t_src t)) (Poke "x" [9; 9]))) [] = [9; 9] /\
  option_map (read nat (s_heap (do_act (mkSt (t_heap t) (t_src t)) (Poke "x" [9; 9])))) (get (t_dst t) "x") = Some (inr [1; 2]).
Proof. repeat split. Qed.

(** compare_kf never returns a list of names: when every public attribute both objects have is
    close it returns None; when one is not, or cannot be compared, the call raises. *)
Theorem C64_compare_kf_refuted : forall (V : Type) (allclose : V -> V -> res bool) (d1 d2 : list (string * V)) (attrs : list string),
  (forall k, In k attrs <-> lookup d1 k <> None /\ lookup d2 k <> None) ->
  let close k := match lookup d1 k, lookup d2 k with Some a, Some b => allclose a b | _, _ => Ok true end in
  (forall l, compare_kf allclose d1 d2 attrs <> Ok (Some l)) /\
  (compare_kf allclose d1 d2 attrs = Ok None <-> forall k, private k = false -> close k = Ok true) /\
  ((forall k, private k = false -> exists b, close k = Ok b) -> forall k, private k = false -> close k = Ok false ->
     compare_kf allclose d1 d2 attrs = Err NameError).
Proof.
  intros V allclose d1 d2 attrs hk close.
  assert (D : forall l, (forall k, In k l -> In k attrs) ->
    (forall r, different_keys allclose d1 d2 l = Ok r ->
       (r = [] <-> forall k, In k l -> private k = false -> close k = Ok true)) /\
    ((forall k, In k l -> private k = false -> exists b, close k = Ok b) -> exists r, different_keys allclose d1 d2 l = Ok r) /\
    (forall r, different_keys allclose d1 d2 l = Ok r -> forall k, In k l -> private k = false -> exists b, close k = Ok b)).
  { induction l as [|k l IH]; intros sub.
    - cbn. split; [intros r [= <-]; split; [intros _ k []|reflexivity]|split; [intros _; eexists; reflexivity|intros r _ k []]].
    - destruct (IH (fun k' h => sub k' (or_intror h))) as [I1 [I2 I3]]. cbn.
      destruct (private k) eqn:pk.
      + split; [intros r h; rewrite (I1 r h)|split; [intros h; apply I2; intros k' hi; apply h; right; exact hi|]].
        * split; intros g k' hi pk'; [destruct hi as [<-|hi]; [congruence|]; auto|apply g; [right; exact hi|exact pk']].
        * intros r h k' [<-|hi] pk'; [congruence|]. exact (I3 r h k' hi pk').
      + assert (ik := sub k (or_introl eq_refl)). apply hk in ik. destruct ik as [i1 i2].
        assert (C : close k = match lookup d1 k, lookup d2 k with Some a, Some b => allclose a b | _, _ => Ok true end) by reflexivity.
        destruct (lookup d1 k) as [a|]; [|congruence]. destruct (lookup d2 k) as [b|]; [|congruence].
        destruct (allclose a b) as [c|x] eqn:Ec; cbn [rbind].
        * destruct (different_keys allclose d1 d2 l) as [r0|x] eqn:Er; cbn [rbind].
          { split; [intros r [= <-]|split; [intros _; eexists; reflexivity|]].
            - destruct c.
              + rewrite (I1 r0 eq_refl). split; intros g k' hi pk'; [destruct hi as [<-|hi]; [congruence|auto]|apply g; [right; exact hi|exact pk']].
              + split; [discriminate|]. intros g. specialize (g k (or_introl eq_refl) pk). congruence.
            - intros r _ k' [<-|hi] pk'; [eauto|]. exact (I3 r0 eq_refl k' hi pk'). }
          { split; [discriminate|split; [|discriminate]]. intros h. destruct I2 as [r hr]; [|discriminate].
            intros k' hi. apply h. right; exact hi. }
        * split; [discriminate|split; [|discriminate]]. intros h. destruct (h k (or_introl eq_refl) pk) as [bb hb]. congruence. }
  destruct (D attrs (fun k h => h)) as [D1 [D2 D3]].
  assert (Out : forall k, private k = false -> (In k attrs -> close k = Ok true) -> close k = Ok true).
  { intros k pk h. destruct (lookup d1 k) as [a|] eqn:E1, (lookup d2 k) as [b|] eqn:E2; try (unfold close; rewrite ?E1, ?E2; reflexivity).
    apply h, hk. rewrite E1, E2. split; discriminate. }
  unfold compare_kf. split; [|split].
  - intros l. destruct (different_keys allclose d1 d2 attrs) as [[|? ?]|]; cbn; discriminate.
  - split.
    + destruct (different_keys allclose d1 d2 attrs) as [r|] eqn:E; cbn; [|discriminate].
      destruct r; [|discriminate]. intros _ k pk. apply Out; [exact pk|]. intros i. exact (proj1 (D1 [] eq_refl) eq_refl k i pk).
    + intros h. destruct D2 as [r hr]; [intros k _ pk; exists true; auto|]. rewrite hr. cbn.
      assert (r = []) as -> by (apply (D1 r hr); intros k _ pk; auto). reflexivity.
  - intros h k pk hf. destruct D2 as [r hr]; [intros k' _ pk'; auto|]. rewrite hr. cbn.
    destruct r; [|reflexivity]. exfalso.
    assert (i : In k attrs). { destruct (in_dec string_dec k attrs) as [i|ni]; [exact i|]. exfalso.
      rewrite (Out k pk) in hf; [discriminate|]. intros i; contradiction. }
    rewrite (proj1 (D1 [] hr) eq_refl k i pk) in hf. discriminate.
Qed.
Print Assumptions C64_compare_kf_refuted.
Example C64_compare_example :
  let close a b := Ok (a =? b) in
  compare_kf close [("x", 1); ("P", 2)]%string [("P", 3); ("x", 1); ("_z", 9)]%string ["x"; "P"]%string = Err NameError /\
  compare_kf close [("x", 1); ("P", 2)]%string [("P", 2); ("x", 1)]%string ["P"; "x"]%string = Ok None.
Proof. split; reflexivity. Qed.

(** ** C65 *)
Section Arrays.
Variable B : Type.
Variable np_array_of : list (list B) -> option (nda B).
Notation sv := (sv B).
Notation dl := (list (string * list (list B))).

(** A history of a Saver: saves of attribute values, conversions, flattenings. *)
Inductive sev := ESave (vals : list (string * list B)) | EArr (flatten : bool) | EFlat.
Definition sstep (s : sv) (e : sev) : sv :=
  match e with ESave vals => sv_save vals s | EArr f => fst (sv_to_array np_array_of f s) | EFlat => sv_flatten s end.
Definition srun (h : list sev) : sv := fold_left sstep h (mkSv [] []).
(** The values of [k] that the history saved, in order. *)
Definition values (k : string) (h : list sev) : list (list B) :=
  flat_map (fun e => match e with
    | ESave vals => map snd (filter (fun kv => String.eqb (fst kv) k) vals) | _ => [] end) h.
(** What [saver[k]] returns. *)
Fixpoint dlget (DL : dl) (k : string) : option (list (list B)) :=
  match DL with [] => None | (k', l) :: t => if String.eqb k k' then Some l else dlget t k end.

Lemma dlget_append (DL : dl) k k' v :
  dlget (dl_append DL k' v) k = if String.eqb k k' then Some (match dlget DL k with Some l => l ++ [v] | None => [v] end) else dlget DL k.
Proof.
  induction DL as [|[k0 l] t IH]; cbn; [destruct (String.eqb k k'); reflexivity|].
  destruct (String.eqb_spec k' k0) as [->|ne]; cbn.
  - destruct (String.eqb k k0); reflexivity.
  - destruct (String.eqb_spec k k0) as [->|n2]; [rewrite eqb_neq' by congruence; reflexivity|exact IH].
Qed.
Lemma keys_append (DL : dl) k v x : In x (map fst (dl_append DL k v)) -> x = k \/ In x (map fst DL).
Proof.
  induction DL as [|[k0 l] t IH]; cbn; [intros [->|[]]; auto|].
  destruct (String.eqb k k0); cbn; [tauto|]. intros [->|h]; [auto|]. destruct (IH h); auto.
Qed.
Lemma nodup_append (DL : dl) k v : NoDup (map fst DL) -> NoDup (map fst (dl_append DL k v)).
Proof.
  induction DL as [|[k0 l] t IH]; cbn; intros h; [repeat constructor; auto|]. inversion h; subst.
  destruct (String.eqb_spec k k0) as [->|ne]; cbn; [constructor; auto|]. constructor; [|auto].
  intros hi. apply keys_append in hi. destruct hi; [congruence|contradiction].
Qed.
Lemma dlget_saves (vals : list (string * list B)) : forall (DL : dl) k,
  dlget (fold_left (fun DL kv => dl_append DL (fst kv) (snd kv)) vals DL) k =
  match dlget DL k, map snd (filter (fun kv => String.eqb (fst kv) k) vals) with
  | None, [] => None | None, l => Some l | Some l0, l => Some (l0 ++ l) end.
Proof.
  induction vals as [|[k0 v] vals IH]; intros DL k; cbn [fold_left filter map fst snd].
  - destruct (dlget DL k); [rewrite app_nil_r|]; reflexivity.
  - rewrite IH, dlget_append. rewrite String.eqb_sym. destruct (String.eqb k0 k) eqn:E; cbn [map snd].
    + destruct (dlget DL k); [rewrite <- app_assoc|]; reflexivity.
    + reflexivity.
Qed.
Lemma nodup_saves (vals : list (string * list B)) : forall DL : dl, NoDup (map fst DL) -> NoDup (map fst (fold_left (fun DL kv => dl_append DL (fst kv) (snd kv)) vals DL)).
Proof. induction vals as [|[k0 v] vals IH]; intros DL h; cbn; [exact h|]. apply IH, nodup_append, h. Qed.

Lemma vget_update (DL : dl) : forall d k, NoDup (map fst DL) ->
  vget (vupdate d DL) k = match dlget DL k with Some l => Some (VList l) | None => vget d k end.
Proof.
  unfold vupdate. induction DL as [|[k0 l] t IH]; intros d k nd; cbn [fold_left dlget fst snd]; [reflexivity|].
  inversion nd as [|? ? ni nd']; subst. rewrite IH by exact nd'. destruct (String.eqb_spec k k0) as [->|ne].
  - assert (E : dlget t k0 = None).
    { clear - ni. induction t as [|[k1 l1] t IH]; cbn; [reflexivity|]. cbn in ni.
      rewrite eqb_neq' by (intros ->; apply ni; auto). apply IH. intros h; apply ni; auto. }
    rewrite E. unfold vset; cbn. rewrite String.eqb_refl. reflexivity.
  - destruct (dlget t k); [reflexivity|]. unfold vset; cbn. rewrite eqb_neq' by exact ne. reflexivity.
Qed.

Lemma vget_convert (DL : dl) : forall d d' k, NoDup (map fst DL) -> convert np_array_of DL d = Some d' ->
  match dlget DL k with Some l => exists a, np_array_of l = Some a /\ vget d' k = Some (VArr a) | None => vget d' k = vget d k end.
Proof.
  induction DL as [|[k0 l] t IH]; intros d d' k nd; cbn; [intros [= <-]; reflexivity|].
  inversion nd as [|? ? ni nd']; subst. destruct (np_array_of l) as [a|] eqn:Ea; [|discriminate]. intros h. specialize (IH _ _ k nd' h).
  destruct (String.eqb_spec k k0) as [->|ne].
  - assert (E : dlget t k0 = None).
    { clear - ni. induction t as [|[k1 l1] t IH]; cbn; [reflexivity|]. cbn in ni.
      rewrite eqb_neq' by (intros ->; apply ni; auto). apply IH. intros h; apply ni; auto. }
    rewrite E in IH. exists a. split; [exact Ea|]. rewrite IH. unfold vset; cbn. rewrite String.eqb_refl. reflexivity.
  - destruct (dlget t k); [exact IH|]. rewrite IH. unfold vset; cbn. rewrite eqb_neq' by exact ne. reflexivity.
Qed.
Lemma convert_none (DL : dl) : forall d, NoDup (map fst DL) ->
  (convert np_array_of DL d = None <-> exists k l, dlget DL k = Some l /\ np_array_of l = None).
Proof.
  induction DL as [|[k0 l] t IH]; intros d nd; cbn; [split; [discriminate|intros [k [l [h _]]]; discriminate]|].
  inversion nd as [|? ? ni nd']; subst. destruct (np_array_of l) as [a|] eqn:Ea.
  - rewrite IH by exact nd'. split.
    + intros [k [l' [h1 h2]]]. exists k, l'. split; [|exact h2]. rewrite eqb_neq'; [exact h1|]. intros ->. apply ni.
      clear - h1. induction t as [|[k1 l1] t IH]; cbn in *; [discriminate|]. destruct (String.eqb_spec k0 k1); auto.
    + intros [k [l' [h1 h2]]]. destruct (String.eqb k k0); [congruence|]. exists k, l'. auto.
  - split; [intros _|reflexivity]. exists k0, l. rewrite String.eqb_refl. auto.
Qed.

Lemma vget_flatten (DL : dl) : forall (d : list (string * view B)) k, NoDup (map fst DL) ->
  vget (fold_left (fun d kl => match vget d (fst kl) with Some (VArr a) => vset d (fst kl) (VArr (flatten_arr a)) | _ => d end) DL d) k =
  match dlget DL k, vget d k with Some _, Some (VArr a) => Some (VArr (flatten_arr a)) | _, v => v end.
Proof.
  induction DL as [|[k0 l] t IH]; intros d k nd; cbn [fold_left dlget fst]; [destruct (vget d k); reflexivity|].
  inversion nd as [|? ? ni nd']; subst. rewrite IH by exact nd'. destruct (String.eqb_spec k k0) as [->|ne].
  - assert (E : dlget t k0 = None).
    { clear - ni. induction t as [|[k1 l1] t IH]; cbn; [reflexivity|]. cbn in ni.
      rewrite eqb_neq' by (intros ->; apply ni; auto). apply IH. intros h; apply ni; auto. }
    rewrite E. destruct (vget d k0) as [[?|a]|] eqn:Ed; rewrite ?Ed; try reflexivity. unfold vset; cbn. rewrite String.eqb_refl. reflexivity.
  - assert (V : vget (match vget d k0 with Some (VArr a) => vset d k0 (VArr (flatten_arr a)) | _ => d end) k = vget d k).
    { destruct (vget d k0) as [[?|a]|]; try reflexivity. unfold vset; cbn. rewrite eqb_neq' by exact ne. reflexivity. }
    rewrite V. reflexivity.
Qed.

Lemma nodup_srun h : NoDup (map fst (sv_DL (srun h))).
Proof.
  unfold srun. assert (G : forall s, NoDup (map fst (sv_DL s)) -> NoDup (map fst (sv_DL (fold_left sstep h s)))); [|apply G; constructor].
  induction h as [|e h IH]; intros s nd; cbn; [exact nd|]. apply IH. destruct e as [vals|f|]; cbn.
  - apply nodup_saves, nd.
  - unfold sv_to_array. destruct (convert _ _ _); cbn; [destruct f; exact nd|exact nd].
  - exact nd.
Qed.

(** [saver[k]] is the list of all values of [k] ever saved, whatever conversions, failing ones
    included, happened in between. *)
Theorem C65_item : forall (h : list sev) (k : string),
  dlget (sv_DL (srun h)) k = match values k h with [] => None | l => Some l end.
Proof.
  intros h k. unfold srun.
  assert (G : forall s, dlget (sv_DL (fold_left sstep h s)) k =
    match dlget (sv_DL s) k, values k h with None, [] => None | None, l => Some l | Some l0, l => Some (l0 ++ l) end).
  { induction h as [|e h IH]; intros s; cbn [fold_left values flat_map]; [destruct (dlget _ k); [rewrite app_nil_r|]; reflexivity|].
    rewrite IH. fold (values k h). destruct e as [vals|f|]; cbn [sstep].
    - cbn [sv_DL sv_save]. rewrite dlget_saves. set (w := map snd _).
      destruct (dlget (sv_DL s) k); [rewrite app_assoc; reflexivity|]. destruct w; [reflexivity|]. cbn. reflexivity.
    - unfold sv_to_array. destruct (convert _ _ _); cbn [fst sv_DL]; [destruct f|]; reflexivity.
    - reflexivity. }
  rewrite G. cbn. reflexivity.
Qed.

(** The attribute [saver.k] of a saved key: the full list after a save, even if it was an array
    before; after a conversion the array of that list, flattened if asked; and if some saved list
    cannot be converted, ValueError is raised and every attribute is back to its list. *)
Theorem C65_attribute : forall (h : list sev) (k : string) (v : list B) (vs : list (list B)),
  (forall vals, values k (h ++ [ESave vals]) = v :: vs -> vget (sv_dict (srun (h ++ [ESave vals]))) k = Some (VList (v :: vs))) /\
  (forall f, values k h = v :: vs ->
     (snd (sv_to_array np_array_of f (srun h)) = None ->
        exists a, np_array_of (v :: vs) = Some a /\
                  vget (sv_dict (srun (h ++ [EArr f]))) k = Some (VArr (if f then flatten_arr a else a))) /\
     (snd (sv_to_array np_array_of f (srun h)) <> None ->
        snd (sv_to_array np_array_of f (srun h)) = Some ValueError /\
        vget (sv_dict (srun (h ++ [EArr f]))) k = Some (VList (v :: vs)))) /\
  (forall f, snd (sv_to_array np_array_of f (srun h)) <> None <->
     exists k', values k' h <> [] /\ np_array_of (values k' h) = None).
Proof.
  intros h k v vs. assert (N := nodup_srun h). split; [|split].
  - intros vals e. pose proof (C65_item (h ++ [ESave vals]) k) as I. rewrite e in I.
    assert (N' := nodup_srun (h ++ [ESave vals])).
    unfold srun in *. rewrite fold_left_app in *. cbn [fold_left sstep] in *. cbn [sv_dict sv_save sv_DL] in *.
    rewrite vget_update by exact N'. rewrite I. reflexivity.
  - intros f e. pose proof (C65_item h k) as I. rewrite e in I.
    assert (S : srun (h ++ [EArr f]) = fst (sv_to_array np_array_of f (srun h))) by (unfold srun; rewrite fold_left_app; reflexivity).
    rewrite S. unfold sv_to_array. destruct (convert np_array_of (sv_DL (srun h)) (sv_dict (srun h))) as [d|] eqn:E; cbn [fst snd].
    + split; [intros _|congruence]. pose proof (vget_convert _ _ _ k N E) as G. rewrite I in G. destruct G as [a [Ea Ga]].
      exists a. split; [exact Ea|]. destruct f; [|exact Ga]. unfold sv_flatten; cbn [sv_dict sv_DL].
      rewrite vget_flatten by exact N. rewrite I, Ga. reflexivity.
    + split; [discriminate|intros _; split; [reflexivity|]]. cbn [sv_dict]. rewrite vget_update by exact N. rewrite I. reflexivity.
  - intros f. unfold sv_to_array. destruct (convert np_array_of (sv_DL (srun h)) (sv_dict (srun h))) as [d|] eqn:E; cbn [snd].
    + split; [congruence|]. intros [k' [h1 h2]]. exfalso.
      assert (X : convert np_array_of (sv_DL (srun h)) (sv_dict (srun h)) = None); [|congruence].
      apply convert_none; [exact N|]. exists k', (values k' h). split; [|exact h2].
      rewrite C65_item. destruct (values k' h); [congruence|reflexivity].
    + split; [intros _|discriminate]. apply convert_none in E; [|exact N]. destruct E as [k' [l [h1 h2]]].
      rewrite C65_item in h1. exists k'. destruct (values k' h); [discriminate|]. injection h1 as <-. split; [discriminate|exact h2].
Qed.

(** flatten keeps the data; it drops the last axis of a stack of columns, both axes of a stack of
    one element columns, and leaves everything else alone: also an (n, 1) array, which is not
    turned into a 1-D array. *)
Theorem C65_flatten : forall a : nda B,
  a_data (flatten_arr a) = a_data a /\
  (forall n k, a_shape a = [n; k; 1] -> k <> 1 -> a_shape (flatten_arr a) = [n; k]) /\
  (forall n, a_shape a = [n; 1; 1] -> a_shape (flatten_arr a) = [n]) /\
  (length (a_shape a) <= 2 -> flatten_arr a = a) /\
  (forall n k c rest, a_shape a = n :: k :: c :: rest -> c <> 1 -> flatten_arr a = a).
Proof.
  intros [sh d]. unfold flatten_arr; cbn [a_shape a_data]. split; [|split; [|split; [|split]]].
  - destruct sh as [|n [|k [|c rest]]]; try reflexivity. destruct (c =? 1) eqn:Ec.
    + destruct (prod _ =? n * k); [|reflexivity]. cbn. destruct k as [|[|k]]; reflexivity.
    + cbn. destruct k as [|[|k]]; reflexivity.
  - intros n k -> ne. cbn. rewrite Nat.mul_1_r, Nat.eqb_refl. destruct k as [|[|k]]; [reflexivity|congruence|reflexivity].
  - intros n ->. cbn. rewrite Nat.eqb_refl. cbn. rewrite Nat.mul_1_r. reflexivity.
  - destruct sh as [|n [|k [|c rest]]]; cbn; try reflexivity. lia.
  - intros n k c rest -> ne. apply Nat.eqb_neq in ne. rewrite ne. cbn. destruct k as [|[|k]]; reflexivity.
Qed.
End Arrays.
Print Assumptions C65_item.
Print Assumptions C65_attribute.
Print Assumptions C65_flatten.

(** Two columns of two entries are stacked and flattened; the next save brings the list back; a
    value of another length makes the conversion fail. *)
Definition stack (l : list (list nat)) : option (nda nat) :=
  match l with
  | [] => Some (Nda [0] [])
  | v :: _ => if forallb (fun w => length w =? length v) l then Some (Nda [length l; length v; 1] (concat l)) else None
  end.
Example C65_example :
  let h := [ESave nat [("x"%string, [1; 2])]; ESave nat [("x"%string, [3; 4])]] in
  vget (sv_dict (srun nat stack (h ++ [EArr nat true]))) "x"%string = Some (VArr (Nda [2; 2] [1; 2; 3; 4])) /\
  vget (sv_dict (srun nat stack (h ++ [EArr nat true; ESave nat [("x"%string, [5; 6])]]))) "x"%string = Some (VList [[1; 2]; [3; 4]; [5; 6]]) /\
  snd (sv_to_array stack true (srun nat stack (h ++ [ESave nat [("x"%string, [7])]]))) = Some ValueError.
Proof. repeat split. Qed.
