(** * C45: what a Saver records, for every history of filter changes and saves. *)
From Coq Require Import String Ascii List Arith Bool Lia.
From Verif Require Import Model_Saver.
Import ListNotations.

Local Arguments Model_Saver.set : simpl never.
Section P.
Variable A : Type.
Variable callable : A -> bool.
Notation val := (val A).
Notation st := (st A).

(** ** Specification: what reading a value, or an attribute, gives. *)
Definition read (h : heap A) (v : val) : A + list A := match v with Imm a => inl a | Ref _ p => inr (nth p h []) end.
Definition attr (s : st) (k : string) : option (A + list A) := option_map (read (s_heap s)) (get (s_dict s) k).

(** The filter as the save sees it: after the getters of the properties have run. *)
Definition force (ps : list (prop A)) (s : st) : st := fold_left (fun s p => fst (getattr p s)) ps s.

(** The value of attribute [k] at each Save of a history ([f] says which values are skipped). *)
Fixpoint snapshots (f : A + list A -> bool) (k : string) (x : saver A * st) (h : list (event A)) : list (A + list A) :=
  match h with
  | [] => []
  | Act a :: t => snapshots f k (fst x, do_act (snd x) a) t
  | Save _ :: t =>
      (match attr (force (v_props (fst x)) (snd x)) k with Some v => if f v then [] else [v] | None => [] end)
      ++ snapshots f k (save callable (fst x) (snd x)) t
  end.
Definition saves (h : list (event A)) : nat := length (filter (fun e => match e with Save _ => true | _ => false end) h).
(** What saver[k] reads now. *)
Definition recorded (x : saver A * st) (k : string) : list (A + list A) := map (read (s_heap (snd x))) (look (v_DL (fst x)) k).

(** A well-formed filter: its references point into the heap; a dict has each key once. *)
Definition wf (s : st) : Prop :=
  (forall k p, get (s_dict s) k = Some (Ref A p) -> p < length (s_heap s)) /\ NoDup (map fst (s_dict s)).

(** ** Proofs. *)
Lemma eqb_neq' k k' : k <> k' -> String.eqb k k' = false.
Proof. intros; apply String.eqb_neq; assumption. Qed.

Lemma get_del (d : dict A) k k' : get (del d k') k = if String.eqb k k' then None else get d k.
Proof.
  induction d as [|[k0 v] t IH]; cbn; [destruct (String.eqb k k'); reflexivity|].
  destruct (String.eqb_spec k' k0) as [->|ne].
  - rewrite IH. destruct (String.eqb_spec k k0); reflexivity.
  - cbn. rewrite IH. destruct (String.eqb_spec k k0) as [->|]; [rewrite eqb_neq' by congruence; reflexivity|reflexivity].
Qed.
Lemma get_set (d : dict A) k k' v : get (set d k' v) k = if String.eqb k k' then Some v else get d k.
Proof. unfold set; cbn. destruct (String.eqb k k') eqn:E; [reflexivity|]. rewrite get_del, E. reflexivity. Qed.
Lemma in_del (d : dict A) k x : In x (map fst (del d k)) -> In x (map fst d) /\ x <> k.
Proof.
  induction d as [|[k0 v] t IH]; cbn; [contradiction|].
  destruct (String.eqb_spec k k0) as [->|ne].
  - intros h; destruct (IH h); auto.
  - cbn. intros [->|h]; [auto|destruct (IH h); auto].
Qed.
Lemma nodup_del (d : dict A) k : NoDup (map fst d) -> NoDup (map fst (del d k)).
Proof.
  induction d as [|[k0 v] t IH]; cbn; intros h; [constructor|]. inversion h; subst.
  destruct (String.eqb k k0); [auto|]. cbn. constructor; [|auto]. intros hi; apply in_del in hi; tauto.
Qed.
Lemma nodup_set (d : dict A) k v : NoDup (map fst d) -> NoDup (map fst (set d k v)).
Proof. intros h. unfold set; cbn. constructor; [|apply nodup_del, h]. intros hi; apply in_del in hi; tauto. Qed.
Lemma upd_len {B} (l : list B) i b : length (upd l i b) = length l.
Proof. revert i; induction l; intros [|i]; cbn; auto. Qed.
Lemma upd_other {B} (l : list B) i j b d : i <> j -> nth j (upd l i b) d = nth j l d.
Proof. revert i j; induction l; intros [|i] [|j] h; cbn; auto; try congruence. Qed.

(** [kept P h h']: the heap only grew, and the cells in P kept their contents. *)
Definition kept (P : nat -> Prop) (h h' : heap A) : Prop :=
  length h <= length h' /\ forall p, P p -> p < length h -> nth p h' [] = nth p h [].
Definition owned (s : st) (p : nat) : Prop := p < length (s_heap s) /\ forall k, get (s_dict s) k <> Some (Ref A p).

Lemma app_kept P (h x : heap A) : kept P h (h ++ x).
Proof. split; [rewrite app_length; lia|]. intros p _ hp. apply app_nth1, hp. Qed.

Lemma act_ok s a : wf s ->
  wf (do_act s a) /\ kept (owned s) (s_heap s) (s_heap (do_act s a)) /\ forall p, owned s p -> owned (do_act s a) p.
Proof.
  intros [w nd]. destruct a as [k a|k c|k k'|k c|k]; cbn.
  - split; [split; [|apply nodup_set, nd]|split; [split; auto|]]; cbn.
    + intros k0 p. rewrite get_set. destruct (String.eqb k0 k); [discriminate|apply w].
    + intros p [hp no]; split; cbn; [exact hp|]. intros k0. rewrite get_set. destruct (String.eqb k0 k); [discriminate|apply no].
  - split; [split; [|apply nodup_set, nd]|split; [apply app_kept|]]; cbn.
    + intros k0 p. rewrite get_set, app_length; cbn. destruct (String.eqb k0 k); [intros [= <-]; lia|intros h; apply w in h; lia].
    + intros p [hp no]; split; cbn; [rewrite app_length; cbn; lia|]. intros k0. rewrite get_set. destruct (String.eqb k0 k); [intros [= e]; lia|apply no].
  - destruct (get (s_dict s) k') as [v|] eqn:E; [|split; [split; auto|split; [split; auto|auto]]].
    split; [split; [|apply nodup_set, nd]|split; [split; auto|]]; cbn.
    + intros k0 p. rewrite get_set. destruct (String.eqb k0 k); [intros [= ->]; eapply w, E|apply w].
    + intros p [hp no]; split; cbn; [exact hp|]. intros k0. rewrite get_set.
      destruct (String.eqb k0 k); [intros [= ->]; exact (no _ E)|apply no].
  - destruct (get (s_dict s) k) as [[a|q]|] eqn:E; try (split; [split; auto|split; [split; auto|auto]]).
    + cbn. intros k0 p h. rewrite upd_len. eapply w, h.
    + cbn. rewrite upd_len; lia.
    + cbn. intros p [hp no] _. apply upd_other. intros ->. exact (no _ E).
    + intros p [hp no]; split; cbn; [rewrite upd_len; exact hp|exact no].
  - split; [split; [|apply nodup_del, nd]|split; [split; auto|]]; cbn.
    + intros k0 p. rewrite get_del. destruct (String.eqb k0 k); [discriminate|apply w].
    + intros p [hp no]; split; cbn; [exact hp|]. intros k0. rewrite get_del. destruct (String.eqb k0 k); [discriminate|apply no].
Qed.

Lemma kept_trans P h h' h'' : kept P h h' -> kept P h' h'' -> kept P h h''.
Proof. intros [l e] [l' e']; split; [lia|]. intros p hp hl. rewrite e', e; auto; lia. Qed.

Lemma acts_ok l s : wf s ->
  wf (fold_left (@do_act A) l s) /\ kept (owned s) (s_heap s) (s_heap (fold_left (@do_act A) l s)) /\
  forall p, owned s p -> owned (fold_left (@do_act A) l s) p.
Proof.
  revert s; induction l as [|a l IH]; intros s w; cbn; [split; [exact w|split; [split; auto|auto]]|].
  destruct (act_ok s a w) as [w1 [k1 o1]]. destruct (IH _ w1) as [w2 [k2 o2]].
  split; [exact w2|split; [|auto]]. destruct k1 as [l1 e1], k2 as [l2 e2]. split; [lia|].
  intros p hp hl. rewrite e2 by (auto; lia). apply e1; auto.
Qed.

Lemma getattr_ok p s : wf s ->
  wf (fst (getattr p s)) /\ kept (owned s) (s_heap s) (s_heap (fst (getattr p s))) /\ forall q, owned s q -> owned (fst (getattr p s)) q.
Proof.
  intros w. unfold getattr. destruct (acts_ok (p_acts p s) s w) as [[w1 nd] [[l1 e1] o1]].
  set (s' := fold_left _ _ _) in *. destruct (p_ret p s') as [a|c|k]; cbn; [split; [split|split; [split|]]; auto| |split; [split|split; [split|]]; auto].
  split; [split; auto|split; [split|]]; cbn.
  - intros k q h; apply w1 in h. rewrite app_length; lia.
  - rewrite app_length; lia.
  - intros q hq hl. rewrite app_nth1 by lia. apply e1; auto.
  - intros q hq. destruct (o1 q hq) as [h1 h2]. split; cbn; [rewrite app_length; lia|exact h2].
Qed.

Lemma force_ok ps s : wf s ->
  wf (force ps s) /\ kept (owned s) (s_heap s) (s_heap (force ps s)) /\ forall q, owned s q -> owned (force ps s) q.
Proof.
  revert s; induction ps as [|p ps IH]; intros s w; [split; [exact w|split; [split; auto|auto]]|].
  change (force (p :: ps) s) with (force ps (fst (getattr p s))).
  destruct (getattr_ok p s w) as [w1 [k1 o1]]. destruct (IH _ w1) as [w2 [k2 o2]].
  split; [exact w2|split; [|auto]]. destruct k1 as [l1 e1], k2 as [l2 e2]. split; [lia|].
  intros q hq hl. rewrite e2 by (auto; lia). apply e1; auto.
Qed.

(** Appending. *)
Lemma look_append (d : list (string * list val)) k k' v : look (append d k' v) k = look d k ++ (if String.eqb k k' then [v] else []).
Proof.
  induction d as [|[k0 l] t IH]; cbn; [destruct (String.eqb k k'); reflexivity|].
  destruct (String.eqb_spec k' k0) as [->|ne]; cbn.
  - destruct (String.eqb k k0); [reflexivity|]. rewrite app_nil_r; reflexivity.
  - rewrite IH. destruct (String.eqb_spec k k0) as [->|]; [rewrite eqb_neq' by congruence; rewrite app_nil_r; reflexivity|reflexivity].
Qed.
Lemma look_appends (d : dict A) DL k : NoDup (map fst d) ->
  look (fold_left (fun DL kv => append DL (fst kv) (snd kv)) d DL) k = look DL k ++ match get d k with Some v => [v] | None => [] end.
Proof.
  revert DL; induction d as [|[k0 v] t IH]; intros DL nd; cbn; [rewrite app_nil_r; reflexivity|].
  inversion nd as [|? ? ni nd']; subst. rewrite IH by exact nd'. rewrite look_append, <- app_assoc. f_equal.
  destruct (String.eqb_spec k k0) as [->|ne]; [|reflexivity].
  assert (get t k0 = None) as ->; [|reflexivity].
  cbn in ni. clear -ni. induction t as [|[k1 v1] t IH]; cbn in *; [reflexivity|].
  rewrite eqb_neq' by (intros ->; auto). apply IH; auto.
Qed.

(** deepcopy: same keys, same readings, new cells. *)
Lemma deepcopy_ok d h : 
  let r := deepcopy h d in
  map fst (snd r) = map fst d /\ kept (fun _ => True) h (fst r) /\
  (forall k, (forall p, get d k = Some (Ref A p) -> p < length h) ->
     option_map (read (fst r)) (get (snd r) k) = option_map (read h) (get d k)) /\
  (forall k p, get (snd r) k = Some (Ref A p) -> length h <= p < length (fst r)).
Proof.
  revert h; induction d as [|[k0 v] t IH]; intros h; cbn; [repeat split; auto; discriminate|].
  set (hv := copy_val h v). destruct hv as [h1 v'] eqn:E. specialize (IH h1). destruct (deepcopy h1 t) as [h2 t'] eqn:E2.
  cbn in IH |- *. destruct IH as [km [[l2 e2] [rd fr]]].
  assert (K1 : length h <= length h1 /\ (forall p, p < length h -> nth p h1 [] = nth p h []) /\
    ((forall p, v = Ref A p -> p < length h) -> read h1 v' = read h v) /\ (forall p, v' = Ref A p -> length h <= p < length h1)).
  { unfold hv in E. destruct v as [a|p]; cbn in E; injection E as <- <-.
    - repeat split; auto; discriminate.
    - rewrite app_length; cbn. repeat split; try lia.
      + intros q hq. apply app_nth1, hq.
      + intros _. cbn. rewrite app_nth2, Nat.sub_diag by lia. reflexivity.
      + injection H as <-; lia.
      + injection H as <-; lia. }
  destruct K1 as [l1 [e1 [rv fv]]]. split; [f_equal; exact km|split; [split; [lia|]|split]].
  - intros p _ hp. rewrite e2 by (auto; lia). apply e1, hp.
  - intros k hk. destruct (String.eqb k k0) eqn:Ek; cbn.
    + f_equal. rewrite <- rv; [|intros p ->; apply hk; reflexivity].
      destruct v' as [a|p]; cbn; [reflexivity|]. f_equal. apply e2; [exact I|]. destruct (fv p eq_refl); assumption.
    + rewrite rd; [|intros p hp; specialize (hk p hp); lia].
      destruct (get t k) as [[a|p]|] eqn:G; cbn; try reflexivity. do 2 f_equal. apply e1, hk; reflexivity.
  - intros k p. destruct (String.eqb k k0).
    + intros [= ->]. destruct (fv p eq_refl). lia.
    + intros h0. apply fr in h0. lia.
Qed.

Lemma get_filter (f : string * val -> bool) (d : dict A) k : NoDup (map fst d) ->
  get (filter f d) k = match get d k with Some v => if f (k, v) then Some v else None | None => None end.
Proof.
  induction d as [|[k0 v] t IH]; cbn; intros nd; [reflexivity|]. inversion nd as [|? ? ni nd']; subst.
  destruct (String.eqb_spec k k0) as [->|ne].
  - destruct (f (k0, v)) eqn:F; cbn; [rewrite String.eqb_refl; reflexivity|].
    rewrite IH by exact nd'. assert (get t k0 = None) as ->; [|reflexivity].
    cbn in ni. clear -ni. induction t as [|[k1 v1] t IH]; cbn in *; [reflexivity|].
    rewrite eqb_neq' by (intros ->; auto). apply IH; auto.
  - destruct (f (k0, v)); cbn; [rewrite eqb_neq' by exact ne|]; apply IH, nd'.
Qed.
Lemma nodup_filter (f : string * val -> bool) (d : dict A) : NoDup (map fst d) -> NoDup (map fst (filter f d)).
Proof.
  induction d as [|[k0 v] t IH]; cbn; intros nd; [constructor|]. inversion nd as [|? ? ni nd']; subst.
  destruct (f (k0, v)); [|auto]. cbn. constructor; [|auto].
  intros hi. apply ni. apply in_map_iff in hi as [x [e hx]]. apply filter_In in hx as [hx _]. apply in_map_iff. eauto.
Qed.
Lemma get_dels l (d : dict A) k : get (fold_left (@del A) l d) k = if mem k l then None else get d k.
Proof.
  revert d; induction l as [|i l IH]; intros d; cbn; [reflexivity|].
  rewrite IH, get_del. fold (mem k l). destruct (mem k l), (String.eqb k i); reflexivity.
Qed.
Lemma nodup_dels l (d : dict A) : NoDup (map fst d) -> NoDup (map fst (fold_left (@del A) l d)).
Proof. revert d; induction l; intros d h; cbn; [exact h|apply IHl, nodup_del, h]. Qed.

(** save_props only adds under the properties' names. *)
Lemma save_props_st ps s DL : fst (save_props ps s DL) = force ps s.
Proof.
  unfold save_props, force. revert s DL; induction ps as [|p ps IH]; intros s DL; cbn; [reflexivity|].
  destruct (getattr p s) as [s1 v] eqn:E. cbn. apply IH.
Qed.
Lemma save_props_look ps s DL k : ~ In k (map (@p_name A) ps) -> look (snd (save_props ps s DL)) k = look DL k.
Proof.
  unfold save_props. revert s DL; induction ps as [|p ps IH]; intros s DL hn; cbn; [reflexivity|]. cbn in hn.
  destruct (getattr p s) as [s1 v] eqn:E. cbn. rewrite IH by auto.
  destruct v; [|reflexivity]. rewrite look_append, eqb_neq' by (intros ->; auto). apply app_nil_r.
Qed.

Definition skipped (v : saver A) (k : string) : bool := (v_skip_private v && private k) || mem k (v_ignore v).
Definition skips (v : saver A) (x : A + list A) : bool := v_skip_callable v && match x with inl a => callable a | inr _ => false end.

(** One save. *)
Lemma save_ok v s : wf s ->
  let v' := fst (save callable v s) in let s' := snd (save callable v s) in
  wf s' /\ s_dict s' = s_dict (force (v_props v) s) /\
  (forall k, attr s' k = attr (force (v_props v) s) k) /\
  kept (owned s) (s_heap s) (s_heap s') /\ (forall p, owned s p -> owned s' p) /\
  v_len v' = S (v_len v) /\ v_props v' = v_props v /\ v_skip_private v' = v_skip_private v /\
  v_skip_callable v' = v_skip_callable v /\ v_ignore v' = v_ignore v /\
  forall k, ~ In k (map (@p_name A) (v_props v)) ->
    (skipped v k = true -> look (v_DL v') k = look (v_DL v) k) /\
    (skipped v k = false -> exists new, look (v_DL v') k = look (v_DL v) k ++ new /\
       map (read (s_heap s')) new = match attr (force (v_props v) s) k with Some x => if skips v x then [] else [x] | None => [] end /\
       forall p, In (Ref A p) new -> owned s' p).
Proof.
  intros w. unfold save. destruct (save_props (v_props v) s (v_DL v)) as [s1 DL] eqn:E1.
  assert (F1 : s1 = force (v_props v) s) by (rewrite <- (save_props_st _ _ (v_DL v)), E1; reflexivity).
  assert (D1 : forall k, ~ In k (map (@p_name A) (v_props v)) -> look DL k = look (v_DL v) k).
  { intros k hk. rewrite <- (save_props_look (v_props v) s (v_DL v) k hk), E1. reflexivity. }
  destruct (force_ok (v_props v) s w) as [[w1 nd] [[l1 e1] o1]]. rewrite <- F1 in *.
  destruct (deepcopy_ok (s_dict s1) (s_heap s1)) as [km [[l2 e2] [rd fr]]].
  destruct (deepcopy (s_heap s1) (s_dict s1)) as [h2 d2] eqn:E2. cbn [fst snd] in *.
  assert (nd2 : NoDup (map fst d2)) by (rewrite km; exact nd).
  split; [split; [intros k p h; apply w1 in h; cbn; lia|exact nd]|].
  split; [reflexivity|].
  split. { intros k. unfold attr; cbn. destruct (get (s_dict s1) k) as [[a|p]|] eqn:G; cbn; try reflexivity. do 2 f_equal. apply e2; auto. eapply w1, G. }
  split. { split; cbn; [lia|]. intros p hp hl. rewrite e2 by (auto; lia). apply e1; auto. }
  split. { intros p hp. destruct (o1 p hp) as [h1 h3]. split; cbn; [lia|exact h3]. }
  do 5 (split; [reflexivity|]).
  intros k hk.
  set (d3 := if v_skip_private v then filter (fun kv => negb (private (fst kv))) d2 else d2).
  set (d4 := if v_skip_callable v then filter (fun kv => negb (is_callable callable (snd kv))) d3 else d3).
  assert (nd3 : NoDup (map fst d3)) by (unfold d3; destruct (v_skip_private v); [apply nodup_filter|]; exact nd2).
  assert (nd4 : NoDup (map fst d4)) by (unfold d4; destruct (v_skip_callable v); [apply nodup_filter|]; exact nd3).
  assert (G : get (fold_left (@del A) (v_ignore v) d4) k =
     if skipped v k then None else match get d2 k with Some x => if v_skip_callable v && is_callable callable x then None else Some x | None => None end).
  { rewrite get_dels. unfold skipped. destruct (mem k (v_ignore v)); [rewrite orb_true_r; reflexivity|]. rewrite orb_false_r.
    assert (G3 : get d3 k = if v_skip_private v && private k then None else get d2 k).
    { unfold d3. destruct (v_skip_private v); [|reflexivity]. rewrite get_filter by exact nd2; cbn.
      destruct (private k), (get d2 k); reflexivity. }
    unfold d4. destruct (v_skip_callable v); cbn [andb].
    - rewrite get_filter, G3 by exact nd3; cbn [snd]. destruct (v_skip_private v && private k), (get d2 k) as [x|]; try reflexivity.
      destruct (is_callable callable x); reflexivity.
    - rewrite G3. destruct (v_skip_private v && private k), (get d2 k); reflexivity. }
  assert (L : look (fold_left (fun DL kv => append DL (fst kv) (snd kv)) (fold_left (@del A) (v_ignore v) d4) DL) k =
     look (v_DL v) k ++ match get (fold_left (@del A) (v_ignore v) d4) k with Some x => [x] | None => [] end).
  { rewrite look_appends by (apply nodup_dels, nd4). rewrite D1 by exact hk. reflexivity. }
  cbn [fst snd v_DL]. split; intros sk; rewrite G, sk in L.
  - rewrite L. apply app_nil_r.
  - eexists; split; [exact L|]. split.
    + assert (R := rd k (fun p hp => w1 k p hp)). unfold attr. rewrite <- R.
      destruct (get d2 k) as [x|] eqn:G2; cbn; [|reflexivity].
      unfold skips. destruct (v_skip_callable v); cbn; [|reflexivity].
      destruct x as [a|p]; cbn; [destruct (callable a)|]; reflexivity.
    + destruct (get d2 k) as [x|] eqn:G2; [|contradiction].
      destruct (v_skip_callable v && is_callable callable x); [contradiction|].
      intros p [->|[]]. destruct (fr _ _ G2) as [f1 f2]. split; [exact f2|].
      cbn. intros k0 h0. apply w1 in h0. lia.
Qed.

(** The invariant carried through a history. *)
Lemma run_ok k h : forall x, wf (snd x) -> ~ In k (map (@p_name A) (v_props (fst x))) -> skipped (fst x) k = false ->
  (forall p, In (Ref A p) (look (v_DL (fst x)) k) -> owned (snd x) p) ->
  let y := run callable h x in
  exists new, look (v_DL (fst y)) k = look (v_DL (fst x)) k ++ new /\
    map (read (s_heap (snd y))) (look (v_DL (fst x)) k) = map (read (s_heap (snd x))) (look (v_DL (fst x)) k) /\
    map (read (s_heap (snd y))) new = snapshots (skips (fst x)) k x h /\
    kept (owned (snd x)) (s_heap (snd x)) (s_heap (snd y)) /\
    v_len (fst y) = v_len (fst x) + saves h.
Proof.
  assert (RD : forall P h h' l, kept P h h' -> (forall p, In (Ref A p) l -> P p /\ p < length h) -> map (read h') l = map (read h) l).
  { intros P h0 h' l [_ e] hl. apply map_ext_in. intros [a|p] hi; cbn; [reflexivity|]. f_equal. destruct (hl p hi). apply e; auto. }
  induction h as [|e h IH]; intros x w hk sk ow.
  - exists []. cbn. rewrite app_nil_r, Nat.add_0_r. repeat split; auto.
  - assert (W : exists ow' : forall p, In (Ref A p) (look (v_DL (fst x)) k) -> owned (snd x) p /\ p < length (s_heap (snd x)), True).
    { assert (forall p, In (Ref A p) (look (v_DL (fst x)) k) -> owned (snd x) p /\ p < length (s_heap (snd x))) as q; [|exists q; exact I].
      intros p hp. split; [apply ow, hp|]. destruct (ow p hp); assumption. }
    destruct W as [ow' _]. destruct e as [a|].
    + destruct (act_ok (snd x) a w) as [w1 [k1 o1]].
      destruct (IH (fst x, do_act (snd x) a) w1 hk sk (fun p hp => o1 p (ow p hp))) as [new [L [K [N [Kp Ln]]]]].
      exists new. cbn [run step fold_left snapshots fst snd] in *. split; [exact L|]. split.
      * unfold run in K. rewrite K. apply (RD _ _ _ _ k1 ow').
      * split; [exact N|]. split; [|exact Ln].
        destruct k1 as [l1 e1], Kp as [l2 e2]; unfold run in *; cbn in *. split; [lia|]. intros p hp hl. rewrite e2; [apply e1; auto|auto|lia].
    + destruct (save_ok (fst x) (snd x) w) as [w1 [_ [_ [k1 [o1 [ln [pe [e1 [e2 [e3 D]]]]]]]]]].
      destruct (D k hk) as [_ D']. destruct (D' sk) as [n1 [L1 [R1 O1]]].
      set (x1 := save callable (fst x) (snd x)) in *.
      assert (sk1 : skipped (fst x1) k = false) by (unfold skipped in *; rewrite e1, e3; exact sk).
      assert (ss : forall y, skips (fst x1) y = skips (fst x) y) by (intros y; unfold skips; rewrite e2; reflexivity).
      assert (SE : forall h z, snapshots (skips (fst x1)) k z h = snapshots (skips (fst x)) k z h).
      { clear -ss. induction h as [|[a|] h IH]; intros z; cbn; [reflexivity|apply IH|]. rewrite IH.
        destruct (attr _ k); [rewrite ss|]; reflexivity. }
      destruct (IH x1 w1) as [new [L [K [N [Kp Ln]]]]]; [rewrite pe; exact hk|exact sk1| |].
      { intros p. rewrite L1. rewrite in_app_iff. intros [hp|hp]; [apply o1, ow, hp|apply O1, hp]. }
      exists (n1 ++ new). cbn [run step fold_left snapshots] in *. change (save callable (fst x) (snd x)) with x1.
      change (fold_left (step callable) h x1) with (run callable h x1).
      clear K.
      assert (K' : map (read (s_heap (snd (run callable h x1)))) (look (v_DL (fst x)) k) = map (read (s_heap (snd x1))) (look (v_DL (fst x)) k) /\
                   map (read (s_heap (snd (run callable h x1)))) n1 = map (read (s_heap (snd x1))) n1).
      { split; [apply (RD _ _ _ _ Kp); intros p hp; split; [apply o1, ow, hp|destruct (o1 p (ow p hp)); assumption]|].
        apply (RD _ _ _ _ Kp). intros p hp; split; [apply O1, hp|destruct (O1 p hp); assumption]. }
      destruct K' as [Ka Kb].
      split; [rewrite L, L1, <- app_assoc; reflexivity|]. split.
      * rewrite Ka. apply (RD _ _ _ _ k1 ow').
      * split; [rewrite map_app, Kb, R1, N, SE; reflexivity|]. split.
        -- destruct k1 as [l1 f1], Kp as [l2 f2]; split; [lia|]. intros p hp hl. rewrite f2; [apply f1; auto|auto|lia].
        -- rewrite Ln, ln. unfold saves; cbn [filter length]. lia.
Qed.
End P.

(** ** C45.  For every class (any properties), any settings, any starting filter and any program:
    a name that is an attribute, not a property, and is not ignored (nor private with
    skip_private), has recorded exactly the values the attribute had at the saves, in order, as read
    at the end of the program -- whatever happened to the filter in between, aliasing and in-place
    changes included.  (With skip_callable, functions are left out.)  And len(saver) is the number
    of saves. *)
Theorem C45_records_history : forall (A : Type) (callable : A -> bool) (props : list (prop A)) (sp sc : bool) (ignore : list string)
    (s : st A) (h : list (event A)) (k : string),
  wf A s -> ~ In k (map (@p_name A) props) -> ~ In k ignore -> (sp = true -> private k = false) ->
  let x := (saver_init props sp sc ignore, s) in
  let y := run callable h x in
  recorded A y k = snapshots A callable (fun v => sc && match v with inl a => callable a | inr _ => false end) k x h /\
  v_len (fst y) = saves A h.
Proof.
  intros A callable props sp sc ignore s h k w hk hi hp x y.
  assert (M : mem k ignore = false).
  { unfold mem. destruct (existsb (String.eqb k) ignore) eqn:E; [|reflexivity].
    apply existsb_exists in E as [z [hz e]]. apply String.eqb_eq in e as ->. contradiction. }
  destruct (run_ok A callable k h x w) as [new [L [_ [N [_ Ln]]]]].
  - cbn. intros q. apply hk. apply in_map_iff in q as [p [e hq]]. apply filter_In in hq as [hq _]. apply in_map_iff; eauto.
  - unfold skipped, x; cbn [fst saver_init v_skip_private v_ignore]. rewrite M, orb_false_r. destruct sp; [rewrite hp by reflexivity|]; reflexivity.
  - intros p [].
  - split; [|exact Ln]. unfold recorded. subst y. rewrite L. exact N.
Qed.
Print Assumptions C45_records_history.

(** In particular an attribute present at every save has one entry per save. *)
Corollary C45_one_entry_per_save : forall (A : Type) (callable : A -> bool) (props : list (prop A)) (sp : bool) (ignore : list string)
    (s : st A) (h : list (event A)) (k : string),
  wf A s -> ~ In k (map (@p_name A) props) -> ~ In k ignore -> (sp = true -> private k = false) ->
  let x := (saver_init props sp false ignore, s) in
  (forall h1 h2, h = h1 ++ Save A :: h2 -> attr A (force A (v_props (fst (run callable h1 x))) (snd (run callable h1 x))) k <> None) ->
  length (recorded A (run callable h x) k) = saves A h.
Proof.
  intros A callable props sp ignore s h k w hk hi hp x pr.
  destruct (C45_records_history A callable props sp false ignore s h k w hk hi hp) as [E _].
  fold x in E. rewrite E. cbn [andb]. clear E; clearbody x. revert x pr. induction h as [|[a|] h IH]; intros x pr; [reflexivity| |].
  - cbn. apply IH. intros h1 h2 ->. exact (pr (Act a :: h1) h2 eq_refl).
  - cbn. rewrite app_length. unfold saves; cbn. fold (saves A h).
    rewrite IH; [|intros h1 h2 ->; exact (pr (Save A :: h1) h2 eq_refl)].
    specialize (pr [] h eq_refl). cbn in pr. destruct (attr A _ k); [reflexivity|contradiction].
Qed.
Print Assumptions C45_one_entry_per_save.

(** Ignored names, and private names with skip_private, are never recorded. *)
Theorem C45_ignored : forall (A : Type) (callable : A -> bool) (props : list (prop A)) (sp sc : bool) (ignore : list string)
    (s : st A) (h : list (event A)) (k : string),
  wf A s -> (In k ignore \/ (sp = true /\ private k = true /\ ~ In k (map (@p_name A) props))) ->
  recorded A (run callable h (saver_init props sp sc ignore, s)) k = [].
Proof.
  intros A callable props sp sc ignore s h k w hk.
  assert (I : forall h x, wf A (snd x) -> ~ In k (map (@p_name A) (v_props (fst x))) -> skipped A (fst x) k = true -> look (v_DL (fst x)) k = [] ->
    look (v_DL (fst (run callable h x))) k = []).
  { clear. induction h as [|[a|] h IH]; intros x w hk sk e; [exact e| |]; cbn [run fold_left step].
    - apply IH; auto. apply (act_ok A (snd x) a w).
    - destruct (save_ok A callable (fst x) (snd x) w) as [w1 [_ [_ [k1 [o1 [ln [pe [e1 [e2 [e3 D]]]]]]]]]].
      apply IH; [exact w1|rewrite pe; exact hk|unfold skipped in *; rewrite e1, e3; exact sk|].
      destruct (D k hk) as [D1 _]. rewrite D1 by exact sk. exact e. }
  unfold recorded. rewrite I; [reflexivity|exact w| | |reflexivity]; cbn.
  - intros q. apply in_map_iff in q as [p [e hq]]. apply filter_In in hq as [hq hm].
    destruct hk as [hk|[_ [_ hk]]]; [|apply hk, in_map_iff; eauto].
    rewrite e in hm. assert (mem k ignore = true) as M; [|rewrite M in hm; discriminate].
    apply existsb_exists. exists k. split; [exact hk|apply String.eqb_refl].
  - unfold skipped; cbn. destruct hk as [hk|[-> [-> _]]]; [|reflexivity].
    apply orb_true_iff; right. apply existsb_exists. exists k. split; [exact hk|apply String.eqb_refl].
Qed.
Print Assumptions C45_ignored.

(** Saving does not change the filter (beyond what the getters of its properties do). *)
Theorem C45_save_is_passive : forall (A : Type) (callable : A -> bool) (v : saver A) (s : st A) (k : string), wf A s ->
  (forall p s', In p (v_props v) -> p_acts p s' = []) ->
  attr A (snd (save callable v s)) k = attr A s k.
Proof.
  intros A callable v s k w hp. destruct (save_ok A callable v s w) as [_ [_ [e _]]]. rewrite e.
  assert (G : forall ps s', wf A s' -> (forall p, In p ps -> In p (v_props v)) -> attr A (force A ps s') k = attr A s' k).
  { clear e w s. induction ps as [|p ps IH]; intros s w hi; [reflexivity|]. cbn [force fold_left]. fold (force A ps (fst (getattr p s))).
    rewrite IH; [|apply getattr_ok, w|intros; apply hi; right; assumption].
    unfold getattr. rewrite hp by (apply hi; left; reflexivity). cbn. destruct (p_ret p s); cbn; try reflexivity.
    unfold attr; cbn. destruct (get (s_dict s) k) as [[a|q]|] eqn:G; cbn; try reflexivity. do 2 f_equal. apply app_nth1. eapply (proj1 w), G. }
  apply G; auto.
Qed.
Print Assumptions C45_save_is_passive.

(** A property whose getter returns the object an attribute holds is recorded by reference:
    InformationFilter.F.  Set F to an array, save, change F in place (F[0,1] = dt), save: both
    recorded entries show the later value, while the attribute behind it is recorded correctly. *)
Definition info_F : prop nat := mkProp "F" (fun _ => []) (fun _ => RAlias nat "_F").
Definition ex_h : list (event nat) := [Act (SetNew "_F" [1; 7]); Save nat; Act (Poke "_F" [1; 9]); Save nat].
Definition ex_x := (saver_init [info_F] false false [], mkSt ([] : heap nat) []).
Theorem C45_property_by_reference_refuted :
  recorded nat (run (fun _ => false) ex_h ex_x) "F" = [inr [1; 9]; inr [1; 9]] /\
  recorded nat (run (fun _ => false) ex_h ex_x) "_F" = [inr [1; 7]; inr [1; 9]].
Proof. split; reflexivity. Qed.
Print Assumptions C45_property_by_reference_refuted.

(** An attribute first set after a save has a shorter list, so its k-th entry is not the k-th save. *)
Theorem C45_late_attribute_refuted :
  let y := run (fun _ => false) [Save nat; Act (SetImm "z" 5); Save nat] ex_x in
  recorded nat y "z" = [inl 5] /\ v_len (fst y) = 2.
Proof. split; reflexivity. Qed.
Print Assumptions C45_late_attribute_refuted.

Example C45_example : wf nat (snd ex_x) /\ ~ In "_F"%string (map (@p_name nat) [info_F]) /\
  snapshots nat (fun _ => false) (fun _ => false) "_F" ex_x ex_h = [inr [1; 7]; inr [1; 9]].
Proof.
  split; [split; [discriminate|constructor]|split; [|reflexivity]]. cbn. intros [e|[]]. discriminate e.
Qed.
