(** * Properties of filterpy.gh: C34, C35, C36, C53, C54. *)
From Coq Require Import List Reals Lra Lia Psatz Arith Floats Bool.
From Verif Require Import Ops ListOps RealOps Model_GH Model_LSQ Spec_GH Proof_GH.
Import ListNotations.
Open Scope R_scope.

(** ** C34: batch_filter is the iteration of update and changes nothing. *)
Theorem C34_batch_is_iteration : forall (data : list R) (s : gh RS), gh_dt s <> 0 ->
  let '(s', results, predictions, saved) := gh_batch data s in
  s' = s /\ saved = repeat s (length data) /\
  length results = S (length data) /\ length predictions = length data /\
  forall k, (k <= length data)%nat ->
    let st j := gh_run (plain (firstn j data)) s in
    nth_error results k = Some (gh_x (st k), gh_dx (st k)) /\
    ((k < length data)%nat -> nth_error predictions k = Some (gh_x_prediction (st (S k)))).
Proof.
  intros data s Hdt. unfold gh_batch.
  destruct (gh_batch_loop _ _ _ _ _ data) as [r p] eqn:E. cbn [sdiv RS] in E.
  split; [reflexivity|]. split.
  { clear E. induction data as [|z data IH]; [reflexivity|]. cbn. f_equal. exact IH. }
  assert (G : forall (data : list R) (s' : gh RS) (r : list (R * R)) (p : list R), gh_dt s' = gh_dt s -> gh_g s' = gh_g s -> gh_h s' = gh_h s ->
    gh_batch_loop (o:=RS) (gh_dt s) (gh_g s) (gh_h s / gh_dt s) (gh_x s') (gh_dx s') data = (r, p) ->
    length r = length data /\ length p = length data /\
    forall k, (k < length data)%nat ->
      let st j := gh_run (plain (firstn j data)) s' in
      nth_error r k = Some (gh_x (st (S k)), gh_dx (st (S k))) /\
      nth_error p k = Some (gh_x_prediction (st (S k)))).
  { clear data r p E. induction data as [|z data IH]; intros s' r p h1 h2 h3 E.
    - injection E as <- <-. repeat split; simpl in *; lia.
    - cbn [gh_batch_loop sc sadd ssub smul sdiv RS] in E.
      destruct (gh_batch_loop _ _ _ _ _ data) as [r' p'] eqn:E'. injection E as <- <-.
      set (s'' := gh_update (o:=RS) z None None s').
      assert (hx : gh_x s'' = gh_x s' + gh_dx s' * gh_dt s + gh_g s * (z - (gh_x s' + gh_dx s' * gh_dt s)))
        by (unfold s''; simpl; rewrite h1, h2; reflexivity).
      assert (hd : gh_dx s'' = gh_dx s' + gh_h s / gh_dt s * (z - (gh_x s' + gh_dx s' * gh_dt s)))
        by (unfold s''; simpl; rewrite h1, h3; field; exact Hdt).
      rewrite <- hx, <- hd in E'.
      destruct (IH s'' r' p' h1 h2 h3 E') as (l1 & l2 & H).
      rewrite <- hx, <- hd.
      split; [cbn; f_equal; assumption|]. split; [cbn; f_equal; assumption|].
      intros [|k] Hk st; unfold st; cbn [firstn plain map].
      + cbn. rewrite h1. split; reflexivity.
      + cbn [nth_error]. simpl in Hk. destruct (H k) as [H1 H2]; [lia|].
        change (gh_run ((z, None, None) :: map (fun z0 => (z0, None, None)) (firstn (S k) data)) s')
          with (gh_run (plain (firstn (S k) data)) s''). auto. }
  destruct (G data s r p eq_refl eq_refl eq_refl E) as (l1 & l2 & H).
  split; [cbn; f_equal; assumption|]. split; [exact l2|].
  intros k Hk. destruct k as [|k].
  - split; [reflexivity|]. intros Hk'. destruct (H 0%nat Hk') as [_ H2]. exact H2.
  - cbn [nth_error]. destruct (H k) as [H1 _]; [lia|]. split; [exact H1|].
    intros Hk'. destruct (H (S k) Hk') as [_ H2]. exact H2.
Qed.
Print Assumptions C34_batch_is_iteration.

(** Tracking: the errors relative to a target of constant velocity follow the same
    filter driven by the measurement errors, whatever the target and the gains. *)
Theorem C34_error_recursion : forall steps (p v : R) (s : gh RS),
  let n := INR (length steps) in
  let s1 := gh_run (line_meas p v (gh_dt s) steps) s in
  let s2 := gh_run steps (gh_err p v s) in
  gh_x s1 - (p + v * (n * gh_dt s)) = gh_x s2 /\ gh_dx s1 - v = gh_dx s2 /\
  gh_y s1 = gh_y s2 /\ gh_dt s1 = gh_dt s.
Proof.
  induction steps as [|[[e g] h] steps IH]; intros p v s n s1 s2.
  - unfold n, s1, s2; simpl. repeat split; ring.
  - set (s' := gh_update (o:=RS) (p + v * gh_dt s + e) g h s).
    specialize (IH (p + v * gh_dt s) v s'). cbn zeta in IH.
    assert (E : gh_err (p + v * gh_dt s) v s' =
      mkGH (o:=RS) (gh_x (gh_update (o:=RS) e g h (gh_err p v s))) (gh_dx (gh_update (o:=RS) e g h (gh_err p v s)))
        (gh_dt s) (gh_g s) (gh_h s) (gh_x s + gh_dx s * gh_dt s) (gh_dx s)
        (gh_y (gh_update (o:=RS) e g h (gh_err p v s))) (gh_z s)).
    { unfold gh_err, s'. simpl. f_equal; unfold Rdiv; ring. }
    (* the predictions do not influence the rest of the run *)
    assert (Ins : forall steps a b, gh_x a = gh_x b -> gh_dx a = gh_dx b -> gh_dt a = gh_dt b ->
      gh_g a = gh_g b -> gh_h a = gh_h b -> gh_y a = gh_y b ->
      gh_x (gh_run steps a) = gh_x (gh_run steps b) /\ gh_dx (gh_run steps a) = gh_dx (gh_run steps b) /\
      gh_y (gh_run steps a) = gh_y (gh_run steps b)).
    { clear. induction steps as [|c steps IH]; intros a b h1 h2 h3 h4 h5 h6; [auto|].
      apply IH; simpl; rewrite ?h1, ?h2, ?h3, ?h4, ?h5; reflexivity. }
    destruct (Ins steps (gh_err (p + v * gh_dt s) v s') (gh_update (o:=RS) e g h (gh_err p v s)))
      as (i1 & i2 & i3); try (rewrite E; reflexivity).
    destruct IH as (j1 & j2 & j3 & j4).
    unfold s1, s2, n. cbn [line_meas length]. rewrite S_INR.
    change (gh_run ((e, g, h) :: steps) (gh_err p v s)) with (gh_run steps (gh_update (o:=RS) e g h (gh_err p v s))).
    change (gh_run ((p + v * gh_dt s + e, g, h) :: line_meas (p + v * gh_dt s) v (gh_dt s) steps) s)
      with (gh_run (line_meas (p + v * gh_dt s) v (gh_dt s') steps) s').
    rewrite <- i1, <- i2, <- i3, <- j1, <- j2, <- j3.
    change (gh_dt s') with (gh_dt s). repeat split; try ring. exact j4.
Qed.
Print Assumptions C34_error_recursion.

(** A ramp is tracked without error from an exact start. *)
Theorem C34_ramp_tracked : forall steps (p v : R) (s : gh RS),
  gh_x s = p -> gh_dx s = v -> Forall (fun c => fst (fst c) = 0) steps ->
  let s1 := gh_run (line_meas p v (gh_dt s) steps) s in
  gh_x s1 = p + v * (INR (length steps) * gh_dt s) /\ gh_dx s1 = v /\
  (steps <> [] -> gh_y s1 = 0).
Proof.
  intros steps p v s hx hd Hz.
  destruct (C34_error_recursion steps p v s) as (h1 & h2 & h3 & _). cbn zeta in *.
  assert (Z : forall steps a, Forall (fun c => fst (fst c) = 0) steps -> gh_x a = 0 -> gh_dx a = 0 ->
    gh_x (gh_run steps a) = 0 /\ gh_dx (gh_run steps a) = 0 /\ (steps <> [] \/ gh_y a = 0 -> gh_y (gh_run steps a) = 0)).
  { clear. induction steps as [|[[e g] h] steps IH]; intros a Hz h1 h2.
    - repeat split; auto. intros [H|H]; [contradiction|exact H].
    - inversion Hz as [|? ? He Hs]; subst. simpl in He. subst e.
      destruct (IH (gh_update (o:=RS) 0 g h a)) as (i1 & i2 & i3); auto.
      + simpl; rewrite h1, h2; ring.
      + simpl; rewrite h1, h2; unfold Rdiv; ring.
      + repeat split; auto. intros _. apply i3. right. simpl; rewrite h1, h2; ring. }
  destruct (Z steps (gh_err p v s) Hz) as (i1 & i2 & i3); try (simpl; lra).
  repeat split; [lra|lra|]. intros Hs. rewrite h3. apply i3. left; exact Hs.
Qed.
Print Assumptions C34_ramp_tracked.

Example C34_example :
  let s := gh_init (o:=RS) 1 2 (1/2) (3/4) (1/8) in
  gh_dt s <> 0 /\ gh_x (gh_update (o:=RS) 6 None None s) = 5.
Proof. simpl; split; lra. Qed.

(** In binary64 the batch loop is not bit-identical: it multiplies by h/dt. *)
Theorem C34_batch_bitwise_refuted : exists (s : gh (floatS (fun x => x) (fun x => x))) z,
  let '(_, r, _, _) := gh_batch [z] s in
  map (fun c => PrimFloat.eqb (snd c) (gh_dx (gh_update z None None s))) (skipn 1 r) = [false].
Proof.
  exists (@gh_init (floatS (fun x => x) (fun x => x)) 0.4%float 0%float 0.2%float 0.4%float 0.5%float), 1%float.
  vm_compute. reflexivity.
Qed.
Print Assumptions C34_batch_bitwise_refuted.

(** ** C35: g-h-k *)
Theorem C35_error_recursion : forall steps (p v a : R) (s : ghk RS), ghk_dt s <> 0 ->
  let t := INR (length steps) * ghk_dt s in
  let s1 := ghk_run (quad_meas p v a (ghk_dt s) steps) s in
  let s2 := ghk_run steps (ghk_err p v a s) in
  ghk_x s1 - (p + v * t + a * t ^ 2 / 2) = ghk_x s2 /\ ghk_dx s1 - (v + a * t) = ghk_dx s2 /\
  ghk_ddx s1 - a = ghk_ddx s2 /\ ghk_y s1 = ghk_y s2.
Proof.
  induction steps as [|[e [[g h] k]] steps IH]; intros p v a s Hdt t s1 s2.
  - unfold t, s1, s2; simpl. repeat split; field.
  - set (s' := ghk_update (o:=RS) (p + v * ghk_dt s + a * ghk_dt s ^ 2 / 2 + e) g h k s).
    specialize (IH (p + v * ghk_dt s + a * ghk_dt s ^ 2 / 2) (v + a * ghk_dt s) a s' Hdt). cbn zeta in IH.
    assert (Ins : forall steps a b, ghk_x a = ghk_x b -> ghk_dx a = ghk_dx b -> ghk_ddx a = ghk_ddx b ->
      ghk_dt a = ghk_dt b ->
      ghk_g a = ghk_g b -> ghk_h a = ghk_h b -> ghk_k a = ghk_k b -> ghk_y a = ghk_y b ->
      ghk_x (ghk_run steps a) = ghk_x (ghk_run steps b) /\ ghk_dx (ghk_run steps a) = ghk_dx (ghk_run steps b) /\
      ghk_ddx (ghk_run steps a) = ghk_ddx (ghk_run steps b) /\
      ghk_y (ghk_run steps a) = ghk_y (ghk_run steps b)).
    { clear. induction steps as [|c steps IH]; intros a b h1 h2 h3 h4 h5 h6 h7 h8; [auto|].
      apply IH; simpl; rewrite ?h1, ?h2, ?h3, ?h4, ?h5, ?h6, ?h7; reflexivity. }
    destruct (Ins steps (ghk_err (p + v * ghk_dt s + a * ghk_dt s ^ 2 / 2) (v + a * ghk_dt s) a s')
       (ghk_update (o:=RS) e g h k (ghk_err p v a s))) as (i1 & i2 & i3 & i4);
      try (unfold s'; simpl; rewrite ?half_R; try reflexivity; field; exact Hdt).
    destruct IH as (j1 & j2 & j3 & j4).
    unfold s1, s2, t. cbn [quad_meas length]. rewrite S_INR.
    change (ghk_run ((e, (g, h, k)) :: steps) (ghk_err p v a s))
      with (ghk_run steps (ghk_update (o:=RS) e g h k (ghk_err p v a s))).
    match goal with |- context [ghk_run (?c :: ?l) s] =>
      change (ghk_run (c :: l) s) with (ghk_run l s') end.
    change (ghk_dt s') with (ghk_dt s) in *.
    rewrite <- i1, <- i2, <- i3, <- i4, <- j1, <- j2, <- j3, <- j4.
    repeat split; field.
Qed.
Print Assumptions C35_error_recursion.

Theorem C35_constant_acceleration_tracked : forall steps (p v a : R) (s : ghk RS), ghk_dt s <> 0 ->
  ghk_x s = p -> ghk_dx s = v -> ghk_ddx s = a -> Forall (fun c => fst c = 0) steps ->
  let s1 := ghk_run (quad_meas p v a (ghk_dt s) steps) s in
  let t := INR (length steps) * ghk_dt s in
  ghk_x s1 = p + v * t + a * t ^ 2 / 2 /\ ghk_dx s1 = v + a * t /\ ghk_ddx s1 = a /\
  (steps <> [] -> ghk_y s1 = 0).
Proof.
  intros steps p v a s Hdt hx hd ha Hz.
  destruct (C35_error_recursion steps p v a s Hdt) as (h1 & h2 & h3 & h4). cbn zeta in *.
  assert (Z : forall steps s, Forall (fun c => fst c = 0) steps -> ghk_x s = 0 -> ghk_dx s = 0 -> ghk_ddx s = 0 ->
    ghk_x (ghk_run steps s) = 0 /\ ghk_dx (ghk_run steps s) = 0 /\ ghk_ddx (ghk_run steps s) = 0 /\
    (steps <> [] \/ ghk_y s = 0 -> ghk_y (ghk_run steps s) = 0)).
  { clear. induction steps as [|[e [[g h] k]] steps IH]; intros s Hz h1 h2 h3.
    - repeat split; auto. intros [H|H]; [contradiction|exact H].
    - inversion Hz as [|? ? He Hs]; subst. simpl in He. subst e.
      destruct (IH (ghk_update (o:=RS) 0 g h k s)) as (i1 & i2 & i3 & i4); auto;
        try (simpl; rewrite h1, h2, h3; unfold Rdiv; ring).
      repeat split; auto. intros _. apply i4. right. simpl; rewrite h1, h2, h3; ring. }
  destruct (Z steps (ghk_err p v a s) Hz) as (i1 & i2 & i3 & i4); try (simpl; lra).
  repeat split; [lra|lra|lra|]. intros Hs. rewrite h4. apply i4. left; exact Hs.
Qed.
Print Assumptions C35_constant_acceleration_tracked.

(** GHFilterOrder is bit for bit the corresponding filter, for any gain arguments
    and any number of updates. *)
Definition gho1 {o : sops} (s : gh o) (k : option (sc o)) (y z : sc o) : gho o :=
  mkGHO [gh_x s; gh_dx s] (gh_dt s) 1 (gh_g s) (Some (gh_h s)) k y z.
Definition gho2 {o : sops} (s : ghk o) (y z : sc o) : gho o :=
  mkGHO [ghk_x s; ghk_dx s; ghk_ddx s] (ghk_dt s) 2 (ghk_g s) (Some (ghk_h s)) (Some (ghk_k s)) y z.

Theorem C35_order1_is_gh : forall (o : sops) (steps : list (sc o * option (sc o) * option (sc o)))
    (s : gh o) k0 y0 z0 (s' : gho o) (f : gh o),
  s' = fold_left (fun s c => fst (gho_update (fst (fst c)) (snd (fst c)) (snd c) None s)) steps (gho1 s k0 y0 z0) ->
  f = fold_left (fun s c => gh_update (fst (fst c)) (snd (fst c)) (snd c) s) steps s ->
  exists y z, s' = gho1 f k0 y z /\ (steps <> [] -> y = gh_y f /\ z = last (map (fun c => fst (fst c)) steps) z0).
Proof.
  intros o steps s k0 y0 z0 s' f -> ->.
  assert (G : forall steps s y0 z0, exists y z,
    fold_left (fun s c => fst (gho_update (fst (fst c)) (snd (fst c)) (snd c) None s)) steps (gho1 s k0 y0 z0)
    = gho1 (fold_left (fun s c => gh_update (fst (fst c)) (snd (fst c)) (snd c) s) steps s) k0 y z
    /\ (steps = [] -> y = y0 /\ z = z0)
    /\ (steps <> [] \/ y0 = gh_y s -> y = gh_y (fold_left (fun s c => gh_update (fst (fst c)) (snd (fst c)) (snd c) s) steps s))
    /\ (z = last (map (fun c => fst (fst c)) steps) z0)).
  { clear. induction steps as [|[[z g] h] steps IH]; intros s y0 z0.
    - exists y0, z0. repeat split; auto. intros [H|H]; [contradiction|exact H].
    - cbn [fold_left]. 
      assert (E : fst (gho_update z g h None (gho1 s k0 y0 z0)) =
        gho1 (gh_update z g h s) k0 (gh_y (gh_update z g h s)) z).
      { destruct h; reflexivity. }
      cbn [fst snd]. rewrite E.
      destruct (IH (gh_update z g h s) (gh_y (gh_update z g h s)) z) as (y & z' & h1 & h2 & h3 & h4).
      exists y, z'. split; [exact h1|]. split; [discriminate|]. split; [intros _; apply h3; right; reflexivity|].
      rewrite h4. destruct steps as [|c steps]; [reflexivity|]. clear.
      cbn [map fst]. revert c. induction steps as [|d steps IH]; intros c; [reflexivity|].
      cbn [map] in *. change (last (fst (fst d) :: map (fun c => fst (fst c)) steps) z
        = last (fst (fst d) :: map (fun c => fst (fst c)) steps) z0). apply IH. }
  destruct (G steps s y0 z0) as (y & z & h1 & h2 & h3 & h4).
  exists y, z. split; [exact h1|]. intros H. split; [apply h3; left; exact H | exact h4].
Qed.
Print Assumptions C35_order1_is_gh.

Theorem C35_order2_is_ghk : forall (o : sops) (steps : list (sc o * (option (sc o) * option (sc o) * option (sc o))))
    (s : ghk o) y0 z0 (s' : gho o) (f : ghk o),
  s' = fold_left (fun s c => fst (gho_update (fst c) (fst (fst (snd c))) (snd (fst (snd c))) (snd (snd c)) s)) steps (gho2 s y0 z0) ->
  f = fold_left (fun s c => ghk_update (fst c) (fst (fst (snd c))) (snd (fst (snd c))) (snd (snd c)) s) steps s ->
  exists y, s' = gho2 f y z0 /\ (steps <> [] -> y = ghk_y f).
Proof.
  intros o steps s y0 z0 s' f -> ->.
  assert (G : forall steps s y0, exists y,
    fold_left (fun s c => fst (gho_update (fst c) (fst (fst (snd c))) (snd (fst (snd c))) (snd (snd c)) s)) steps (gho2 s y0 z0)
    = gho2 (fold_left (fun s c => ghk_update (fst c) (fst (fst (snd c))) (snd (fst (snd c))) (snd (snd c)) s) steps s) y z0
    /\ (steps <> [] \/ y0 = ghk_y s -> y = ghk_y (fold_left (fun s c => ghk_update (fst c) (fst (fst (snd c))) (snd (fst (snd c))) (snd (snd c)) s) steps s))).
  { clear. induction steps as [|[z [[g h] k]] steps IH]; intros s y0.
    - exists y0. split; [reflexivity|]. intros [H|H]; [contradiction|exact H].
    - cbn [fold_left fst snd].
      assert (E : fst (gho_update z g h k (gho2 s y0 z0)) =
        gho2 (ghk_update z g h k s) (ghk_y (ghk_update z g h k s)) z0) by (destruct h, k; reflexivity).
      rewrite E. destruct (IH (ghk_update z g h k s) (ghk_y (ghk_update z g h k s))) as (y & h1 & h2).
      exists y. split; [exact h1|]. intros _; apply h2; right; reflexivity. }
  destruct (G steps s y0) as (y & h1 & h2).
  exists y. split; [exact h1|]. intros H. apply h2; left; exact H.
Qed.
Print Assumptions C35_order2_is_ghk.

(** Order 0 follows x += g (z - x). *)
Theorem C35_order0 : forall (o : sops) (z : sc o) g h k (s : gho o) x,
  gho_order s = 0%nat -> gho_x s = [x] ->
  let (s', e) := gho_update z g h k s in
  e = None /\ gho_x s' = [sadd o x (smul o (opt_or (gho_g s) g) (ssub o z x))] /\ gho_y s' = ssub o z x.
Proof.
  intros o z g h k s x Ho Hx. unfold gho_update. rewrite Ho, Hx. cbn. repeat split.
Qed.
Print Assumptions C35_order0.

(** Only orders 0, 1, 2 are accepted, and a missing h (or k) raises TypeError on
    the first update, which has then already changed x[0]. *)
Theorem C35_order_checked : forall (o : sops) x0 dt neg order g h k,
  (exists s, @gho_init o x0 dt neg order g h k = Ok s) <-> neg = false /\ (order <= 2)%nat.
Proof.
  intros. unfold gho_init. destruct neg; simpl.
  - split; [intros [s H]; discriminate|intros [H _]; discriminate].
  - destruct (Nat.ltb_spec 2 order).
    + split; [intros [s Hs]; discriminate|intros [_ H']; lia].
    + split; [auto|intros _; eexists; reflexivity].
Qed.
Print Assumptions C35_order_checked.

Theorem C35_missing_gain : exists (s : gho RS), gho_init (o:=RS) (inl 0) 1 false 1 (1/2) None None = Ok s /\
  snd (gho_update (o:=RS) 2 None None None s) = Some TypeError /\
  gho_x (fst (gho_update (o:=RS) 2 None None None s)) = [1; 0].
Proof.
  eexists; split; [reflexivity|]. split; [reflexivity|]. cbn. repeat f_equal; field.
Qed.
Print Assumptions C35_missing_gain.

(** GHKFilter.batch_filter is GHFilter.batch_filter with the same g and h: it
    ignores ddx and k ... *)
Theorem C35_batch_is_gh : forall (o : sops) (data : list (sc o)) (s : ghk o) (f : gh o),
  gh_x f = ghk_x s -> gh_dx f = ghk_dx s -> gh_dt f = ghk_dt s -> gh_g f = ghk_g s -> gh_h f = ghk_h s ->
  let '(s', r, p) := ghk_batch data s in
  let '(_, r', p', _) := gh_batch data f in
  s' = s /\ r = r' /\ p = p'.
Proof.
  intros o data s f h1 h2 h3 h4 h5. unfold ghk_batch, gh_batch. rewrite h1, h2, h3, h4, h5.
  destruct (gh_batch_loop _ _ _ _ _ data). auto.
Qed.
Print Assumptions C35_batch_is_gh.

(** ... so it is not the iteration of GHKFilter.update. *)
Theorem C35_batch_refuted : exists (s : ghk RS) z,
  let '(_, r, _) := ghk_batch [z] s in
  nth_error r 1 <> Some (ghk_x (ghk_update (o:=RS) z None None None s), ghk_dx (ghk_update (o:=RS) z None None None s)).
Proof.
  exists (ghk_init (o:=RS) 0 0 2 1 (1/2) (1/2) (1/2)), 0. cbn. intros H.
  injection H as H1 H2. lra.
Qed.
Print Assumptions C35_batch_refuted.

Example C35_example : let s := ghk_init (o:=RS) 1 2 3 (1/2) (1/2) (1/4) (1/8) in
  ghk_dt s <> 0 /\ ghk_x (ghk_update (o:=RS) (1 + 2 * (1/2) + 3 * (1/2) ^ 2 / 2) None None None s) = 19 / 8.
Proof. simpl. split; lra. Qed.

(** ** C36: least_squares_parameters turn GHFilter into the least-squares line. *)
Fixpoint lsq_steps (n : nat) (zs : list R) : list (R * option R * option R) :=
  match zs with
  | [] => []
  | z :: zs => let (g, h) := least_squares_parameters (o:=RS) n in (z, Some g, Some h) :: lsq_steps (S n) zs
  end.

Lemma lsq_steps_app n zs z : lsq_steps n (zs ++ [z]) =
  lsq_steps n zs ++ [(z, Some (fst (least_squares_parameters (o:=RS) (n + length zs))),
                         Some (snd (least_squares_parameters (o:=RS) (n + length zs))))].
Proof.
  revert n; induction zs as [|y zs IH]; intros n; simpl.
  - rewrite Nat.add_0_r. reflexivity.
  - cbn [app lsq_steps]. rewrite IH. cbn [length]. replace (n + S (length zs))%nat with (S n + length zs)%nat by lia. reflexivity.
Qed.

Lemma gh_run_snoc l z g h s : gh_run (l ++ [(z, g, h)]) s = gh_update (o:=RS) z g h (gh_run l s).
Proof. unfold gh_run. rewrite fold_left_app. reflexivity. Qed.

Theorem C36_least_squares_line : forall (zs : list R) (s : gh RS), gh_dt s <> 0 -> zs <> [] ->
  let s' := gh_run (lsq_steps 0 zs) s in
  best_poly 1 (gh_dt s) zs (gh_x s') (gh_dx s') 0 /\
  ((2 <= length zs)%nat -> only_best_poly 1 (gh_dt s) zs (gh_x s') (gh_dx s') 0).
Proof.
  intros zs s Hdt Hne s'.
  assert (Hd : degree_le 1 (gh_dx s') 0) by (split; intros; [lia|reflexivity]).
  cut (normal 1 (poly (gh_dt s) (gh_x s') (gh_dx s') 0) (rev zs)).
  { intros N. split; [apply normal_best; assumption|]. intros Hl. apply normal_unique; auto; lia. }
  subst s'. clear Hd Hne.
  cut (gh_dt (gh_run (lsq_steps 0 zs) s) = gh_dt s /\
       normal 1 (poly (gh_dt s) (gh_x (gh_run (lsq_steps 0 zs) s)) (gh_dx (gh_run (lsq_steps 0 zs) s)) 0) (rev zs)).
  { tauto. }
  induction zs as [|z zs [IHd IH]] using rev_ind.
  - split; [reflexivity|]. unfold normal, mom; simpl. repeat split; auto; intros; lra.
  - rewrite lsq_steps_app, rev_app_distr, gh_run_snoc. cbn [rev app].
    set (a := gh_run (lsq_steps 0 zs) s) in *. clearbody a.
    split; [exact IHd|].
    pose proof (normal_step 1 (gh_dt s) (gh_x a) (gh_dx a) 0
      (fst (least_squares_parameters (o:=RS) (length zs))) (snd (least_squares_parameters (o:=RS) (length zs))) 0
      z (rev zs) Hdt) as St.
    rewrite rev_length in St. cbn zeta in St.
    assert (HN : 0 <= INR (length zs)) by apply pos_INR.
    specialize (St ltac:(lia) ltac:(discriminate)).
    assert (E : gh_x (gh_update (o:=RS) z (Some (fst (least_squares_parameters (o:=RS) (0 + length zs))))
        (Some (snd (least_squares_parameters (o:=RS) (0 + length zs)))) a) =
        gh_x a + gh_dx a * gh_dt s + 0 * gh_dt s ^ 2 / 2 +
        fst (least_squares_parameters (o:=RS) (length zs)) * (z - (gh_x a + gh_dx a * gh_dt s + 0 * gh_dt s ^ 2 / 2))).
    { cbn [sc Nat.add gh_update gh_x opt_or sadd ssub smul RS]. rewrite IHd. field. }
    assert (E' : gh_dx (gh_update (o:=RS) z (Some (fst (least_squares_parameters (o:=RS) (0 + length zs))))
        (Some (snd (least_squares_parameters (o:=RS) (0 + length zs)))) a) =
        gh_dx a + 0 * gh_dt s + snd (least_squares_parameters (o:=RS) (length zs)) * 
         (z - (gh_x a + gh_dx a * gh_dt s + 0 * gh_dt s ^ 2 / 2)) / gh_dt s).
    { cbn [sc Nat.add gh_update gh_dx opt_or sadd ssub smul sdiv RS]. rewrite IHd. field. exact Hdt. }
    rewrite E, E'.
    assert (Z0 : 0 + 0 * (z - (gh_x a + gh_dx a * gh_dt s + 0 * gh_dt s ^ 2 / 2)) / gh_dt s ^ 2 = 0)
      by (cbn [sc]; field; exact Hdt).
    rewrite Z0 in St.
    apply St; [|discriminate|exact IH].
    intros _. split; [reflexivity|]. unfold least_squares_parameters. cbn [fst snd].
    rs. rewrite S_INR. repeat split; field; lra.
Qed.
Print Assumptions C36_least_squares_line.

Example C36_example : let s := gh_init (o:=RS) 0 0 1 0 0 in
  let s' := gh_run (lsq_steps 0 [1; 2; 6]) s in
  gh_dt s <> 0 /\ gh_x s' = 11 / 2 /\ gh_dx s' = 5 / 2.
Proof. unfold lsq_steps, gh_run, least_squares_parameters. simpl. repeat split; lra. Qed.
