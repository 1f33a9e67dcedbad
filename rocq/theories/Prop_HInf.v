(** * HInfinityFilter (C50), in any arithmetic. *)
From Coq Require Import List Arith Bool Lia ZArith Floats SpecFloat QArith.
From Verif Require Import Ops ListOps Model_HInf Prop_UKF_ex.
Import ListNotations.
Set Implicit Arguments.
Unset Strict Implicit.
Local Open Scope nat_scope.
Local Open Scope np_scope.

(** Arrays added, divided by a scalar and transposed entry by entry; addition of scalars commutes. *)
Definition entry_laws (o : nops) : Prop :=
  (forall m n (A B : M o m n) i j, i < m -> j < n -> mget (madd A B) i j = sadd o (mget A i j) (mget B i j)) /\
  (forall m n (A : M o m n) s i j, i < m -> j < n -> mget (mdivs A s) i j = sdiv o (mget A i j) s) /\
  (forall m n (A : M o m n) i j, i < n -> j < m -> mget (mtr A) i j = mget A j i) /\
  (forall a b : sc o, sadd o a b = sadd o b a).

Lemma nth_map_seq {A} (f : nat -> A) n i d : i < n -> nth i (map f (seq 0 n)) d = f i.
Proof.
  intros h. rewrite nth_indep with (d' := f 0) by (rewrite map_length, seq_length; exact h).
  rewrite map_nth. rewrite seq_nth by exact h. reflexivity.
Qed.
Lemma l_get_fun (s : sops) m n f i j : i < m -> j < n -> @l_get s (@l_fun s m n f) i j = f i j.
Proof. intros hi hj. unfold l_get, l_fun. rewrite nth_map_seq by exact hi. now rewrite nth_map_seq by exact hj. Qed.

(** Arrays of any scalars whose addition commutes satisfy the laws ... *)
Lemma list_entry_laws (s : sops) : (forall a b : sc s, sadd s a b = sadd s b a) -> entry_laws (listO s).
Proof.
  intros h. split; [|split; [|split]].
  - intros m n A B i j hi hj. exact (@l_get_fun s _ _ (fun i j => _) i j hi hj).
  - intros m n A a i j hi hj. exact (@l_get_fun s _ _ (fun i j => _) i j hi hj).
  - intros m n A i j hi hj. exact (@l_get_fun s _ _ (fun i j => _) i j hi hj).
  - exact h.
Qed.

(** ... and addition of binary64 numbers commutes, infinities, signed zeros and nan included. *)
Lemma SFadd_comm prec emax x y : SFadd prec emax x y = SFadd prec emax y x.
Proof.
  destruct x as [sx|sx| |sx mx ex], y as [sy|sy| |sy my ey]; cbn; try reflexivity; try (destruct sx, sy; reflexivity).
  rewrite (Z.min_comm ey ex). f_equal. apply Z.add_comm.
Qed.
Lemma float_add_comm a b : PrimFloat.add a b = PrimFloat.add b a.
Proof.
  rewrite <- (SF2Prim_Prim2SF (PrimFloat.add a b)), <- (SF2Prim_Prim2SF (PrimFloat.add b a)).
  rewrite !add_spec. unfold SF64add. now rewrite SFadd_comm.
Qed.

(** ** After every history of calls in which at least one measurement arrived, P is exactly symmetric, in every
    arithmetic with commutative addition, whatever F, Q, W, V, inv and the earlier P were. *)
Inductive hi_call (o : nops) (n m l : nat) :=
| HPredict (bu : hi_ctl o n l)
| HUpdate (z : option (M o m 1)).
Arguments HPredict {o n m l} bu.
Arguments HUpdate {o n m l} z.
Definition hi_step o n m l (c : hi_cfg o n m) (a : hi_call o n m l) (s : hi o n m) : hi o n m * option exn :=
  match a with
  | HPredict bu => (hi_predict c bu s, None)
  | HUpdate z => hi_update c z s
  end.
Fixpoint hi_run o n m l (cs : list (hi_cfg o n m * hi_call o n m l)) (s : hi o n m) : hi o n m :=
  match cs with [] => s | (c, a) :: cs => hi_run cs (fst (hi_step c a s)) end.
Definition exactly_symmetric (o : nops) n (P : M o n n) := forall i j, i < n -> j < n -> mget P i j = mget P j i.

Theorem C50_symmetric : forall (o : nops) (n m l : nat), entry_laws o ->
  (forall (c : hi_cfg o n m) z (s s' : hi o n m), hi_update c (Some z) s = (s', None) -> exactly_symmetric (h_P s')) /\
  (forall (cs : list (hi_cfg o n m * hi_call o n m l)) s, exactly_symmetric (h_P s) -> exactly_symmetric (h_P (hi_run cs s))).
Proof.
  intros o n m l (ha & hd & ht & hc).
  assert (U : forall (c : hi_cfg o n m) z (s s' : hi o n m), hi_update c (Some z) s = (s', None) -> exactly_symmetric (h_P s')).
  { intros c z s s'. unfold hi_update. destruct (h_inv c _) as [L|]; [|discriminate]. intros [= <-]. cbn [h_P].
    set (P := madd (mdot _ _) _). clearbody P. intros i j hi hj. rewrite !hd, !ha, !ht by assumption. f_equal. apply hc. }
  split; [exact U|]. induction cs as [|[c a] cs IH]; intros s hs; [exact hs|]. cbn. apply IH.
  destruct a as [bu|[z|]]; cbn [hi_step fst hi_predict h_P]; [exact hs| |exact hs].
  destruct (hi_update c (Some z) s) as [s' [e|]] eqn:E; cbn [fst]; [|eapply U; exact E].
  unfold hi_update in E. destruct (h_inv c _); [discriminate|]. injection E as <- _. exact hs.
Qed.
Print Assumptions C50_symmetric.

(** In binary64 arithmetic in particular. *)
Theorem C50_symmetric_binary64 : forall (fexp flog : float -> float) (n m : nat) (c : hi_cfg (floatO fexp flog) n m) z s s',
  hi_update c (Some z) s = (s', None) -> exactly_symmetric (h_P s').
Proof.
  intros fexp flog n m. apply (@C50_symmetric (floatO fexp flog) n m 0). apply list_entry_laws. exact float_add_comm.
Qed.
Print Assumptions C50_symmetric_binary64.

(** ** A missing measurement changes nothing; an update that raises changes nothing; predict changes x only (the covariance
    does not grow), to what get_prediction returns; V and its inverse are never touched. *)
Theorem C50_frame : forall (o : nops) (n m l : nat) (c : hi_cfg o n m) (s : hi o n m),
  hi_update c None s = (s, None) /\
  (forall z s' e, hi_update c z s = (s', Some e) -> s' = s /\ e = LinAlgError) /\
  (forall bu : hi_ctl o n l, let s' := hi_predict c bu s in
     h_x s' = hi_get_prediction c bu s /\ h_P s' = h_P s /\ h_y s' = h_y s /\ h_z s' = h_z s) /\
  (forall z s', hi_update c (Some z) s = (s', None) -> h_y s' = hi_residual_of c z s /\ h_z s' = z) /\
  (forall cs : list (hi_cfg o n m * hi_call o n m l), let s' := hi_run cs s in
     h_V s' = h_V s /\ h_V_inv s' = h_V_inv s /\ h_K s' = h_K s).
Proof.
  intros o n m l c s. split; [reflexivity|]. split; [|split; [|split]].
  - intros [z|] s' e; unfold hi_update; [|discriminate]. destruct (h_inv c _); [discriminate|]. intros [= <- <-]. auto.
  - cbn. auto.
  - intros z s'. unfold hi_update. destruct (h_inv c _); [|discriminate]. intros [= <-]. auto.
  - intros cs. cbv zeta. revert s. induction cs as [|[c' a] cs IH]; intros s; [cbn; auto|]. cbn.
    destruct (IH (fst (hi_step c' a s))) as (-> & -> & ->).
    destruct a as [bu|[z|]]; cbn; auto. destruct (h_inv c' _); cbn; auto.
Qed.
Print Assumptions C50_frame.

(** The covariances do not depend on the measured values: two histories with the same configurations and the same pattern of
    missing measurements give the same P. *)
Definition same_shape o n m l (a b : hi_cfg o n m * hi_call o n m l) : Prop :=
  fst a = fst b /\
  match snd a, snd b with
  | HPredict _, HPredict _ => True
  | HUpdate (Some _), HUpdate (Some _) => True
  | HUpdate None, HUpdate None => True
  | _, _ => False
  end.
Theorem C50_P_ignores_data : forall (o : nops) (n m l : nat) (cs cs' : list (hi_cfg o n m * hi_call o n m l)) s s',
  Forall2 (@same_shape o n m l) cs cs' -> h_P s = h_P s' -> h_V_inv s = h_V_inv s' ->
  h_P (hi_run cs s) = h_P (hi_run cs' s').
Proof.
  intros o n m l cs cs' s s' h. revert s s'. induction h as [|[c a] [c' a'] cs cs' [h1 h2] h IH]; intros s s' e1 e2; [exact e1|].
  cbn in h1, h2. subst c'. cbn. apply IH.
  - destruct a as [bu|[z|]], a' as [bu'|[z'|]]; try contradiction; cbn; auto. rewrite e1, e2. destruct (h_inv c _); cbn; auto.
  - destruct a as [bu|[z|]], a' as [bu'|[z'|]]; try contradiction; cbn; auto. rewrite e1, e2. destruct (h_inv c _); cbn; auto.
Qed.
Print Assumptions C50_P_ignores_data.

(** ** batch_filter.  With saver=None (or a Saver) it is the loop; with its default argument it raises on every
    non-empty list of measurements, after the first one has been processed. *)
Definition epoch o n m (c : hi_cfg o n m) (update_first : bool) (z : option (M o m 1)) : list (hi_cfg o n m * hi_call o n m 1) :=
  let p := (c, HPredict CtlZero) in let u := (c, HUpdate z) in if update_first then [u; p] else [p; u].

Theorem C50_batch_default_raises : forall (o : nops) (n m : nat) (c : hi_cfg o n m) z zs s,
  exists e, hi_batch_default 1 c (z :: zs) s = (hi_run (epoch c false z) s, Err e) /\ (e = AttributeError \/ e = LinAlgError) /\
  (e = LinAlgError <-> snd (hi_update c z (hi_predict c (@CtlZero o n 1) s)) <> None).
Proof.
  intros o n m c z zs s. unfold hi_batch_default, hi_batch. cbn [hi_batch_loop epoch hi_run hi_step fst].
  set (s1 := hi_predict c CtlZero s). change (hi_predict c (@CtlZero o n 1) s) with s1. clearbody s1.
  assert (hE : forall s' e, hi_update c z s1 = (s', Some e) -> e = LinAlgError).
  { intros s' e. unfold hi_update. destruct z; [|discriminate]. destruct (h_inv c _); [discriminate|]. now intros [= _ <-]. }
  destruct (hi_update c z s1) as [s2 [e|]]; cbn [snd fst save_result].
  - rewrite (hE _ _ eq_refl). exists LinAlgError. split; [reflexivity|]. split; [auto|]. split; [discriminate|reflexivity].
  - exists AttributeError. split; [reflexivity|]. split; [auto|]. split; [discriminate|]. intros h. now elim h.
Qed.
Print Assumptions C50_batch_default_raises.

Theorem C50_batch : forall (o : nops) (n m : nat) (c : hi_cfg o n m) uf sv zs s s' xs Ps,
  sv <> SaverFalse -> hi_batch 1 c uf sv zs s = (s', Ok (xs, Ps)) ->
  s' = hi_run (concat (map (epoch c uf) zs)) s /\ length xs = length zs /\ length Ps = length zs /\
  forall k z, nth_error zs k = Some z ->
    let t := hi_run (concat (map (epoch c uf) (firstn k zs)) ++ (if uf then [(c, HUpdate z)] else epoch c uf z)) s in
    nth_error xs k = Some (h_x t) /\ nth_error Ps k = Some (h_P t).
Proof.
  intros o n m c uf sv zs s s' xs Ps hsv.
  assert (hs : save_result sv = None) by (destruct sv; [reflexivity|reflexivity|now elim hsv]).
  assert (happ : forall (a b : list (hi_cfg o n m * hi_call o n m 1)) t, hi_run (a ++ b) t = hi_run b (hi_run a t)).
  { induction a as [|[c' a'] a IH]; intros b t; cbn; auto. }
  unfold hi_batch. destruct (hi_batch_loop 1 c uf sv zs s) as [[s1 rows] e] eqn:E. destruct e; [discriminate|]. intros [= <- <- <-].
  revert s s1 rows E. induction zs as [|z zs IH]; intros s s1 rows E.
  - cbn in E. injection E as <- <-. split; [reflexivity|]. split; [reflexivity|]. split; [reflexivity|]. intros [|k] z h; discriminate.
  - cbn [hi_batch_loop] in E. rewrite hs in E.
    destruct (hi_update c z (if uf then s else hi_predict c CtlZero s)) as [s2 [e|]] eqn:E2; [discriminate|].
    set (s3 := if uf then hi_predict c CtlZero s2 else s2) in E.
    destruct (hi_batch_loop 1 c uf sv zs s3) as [[s4 rows'] e'] eqn:E3. injection E as <- <- ->.
    assert (h3 : hi_run (epoch c uf z) s = s3).
    { subst s3. unfold epoch. destruct uf; cbn [hi_run hi_step fst]; rewrite ?E2; reflexivity. }
    destruct (IH _ _ _ E3) as (h4 & h5 & h6 & h7). cbn [map concat fst snd length nth_error].
    rewrite happ, h3. split; [exact h4|]. split; [now rewrite h5|]. split; [now rewrite h6|].
    intros [|k] z' hz; cbn [nth_error firstn map concat] in *.
    + injection hz as <-. cbn [app].
      assert (h8 : hi_run (if uf then [(c, HUpdate z)] else epoch c uf z) s = s2).
      { destruct uf; unfold epoch; cbn [hi_run hi_step fst]; rewrite E2; reflexivity. }
      rewrite h8. auto.
    + rewrite <- app_assoc, happ, h3. apply h7. exact hz.
Qed.
Print Assumptions C50_batch.

(** ** Setting V: afterwards the stored inverse is inv's answer; when inv raises V is already the new value and the stored
    inverse still the old one, and the next update uses the old one. *)
Theorem C50_set_V : forall (o : nops) (n m : nat) inv v (s : hi o n m),
  let (s', e) := hi_set_V inv v s in
  h_V s' = v /\ h_x s' = h_x s /\ h_P s' = h_P s /\
  match inv v with
  | Some vi => e = None /\ h_V_inv s' = vi
  | None => e = Some LinAlgError /\ h_V_inv s' = h_V_inv s /\
      forall (c : hi_cfg o n m) z, h_P (fst (hi_update c z s')) = h_P (fst (hi_update c z s)) /\
                                   h_x (fst (hi_update c z s')) = h_x (fst (hi_update c z s))
  end.
Proof.
  intros o n m inv v s. unfold hi_set_V. destruct (inv v); cbn; repeat split; auto; destruct z; cbn; try destruct (h_inv c _); reflexivity.
Qed.
Print Assumptions C50_set_V.

(** ** Numbers. *)
Local Open Scope Q_scope.
Definition h1 (g f h q w : Q) : hi_cfg QO 1 1 := mkHC (o := QO) (n := 1) (m := 1) g (q11 f) (q11 h) (q11 q) (q11 w) (@l_inv1 QS).
Definition h1s (x P v : Q) : hi QO 1 1 := mkHI (o := QO) (n := 1) (m := 1) (q11 x) (q11 P) (q11 v) (q11 (/ v)) 0 (q11 0) (q11 0).
Definition redm (A : list (list Q)) := map (map Qred) A.
Definition hx_ (r : hi QO 1 1 * option exn) := (redm (h_x (fst r)), redm (h_P (fst r)), snd r).

Example C50_numbers :
  hx_ (hi_update (h1 (1#4) 2 1 1 3) (Some (q11 6)) (h1s 1 1 2)) = ([[5]], [[31#5]], None) /\
  snd (hi_update (h1 (3#2) 2 1 1 3) (Some (q11 6)) (h1s 1 1 2)) = Some LinAlgError /\
  snd (hi_batch_default 1 (h1 (1#4) 2 1 1 3) [Some (q11 6)] (h1s 1 1 2)) = Err AttributeError /\
  snd (hi_batch 1 (h1 (1#4) 1 1 1 0) false SaverNone [None; None] (h1s 1 1 2)) = Ok ([q11 1; q11 1], [q11 1; q11 1]).
Proof. vm_compute; repeat split. Qed.

(** The gain is documented as stored in K; K stays at the 0 of the constructor (part of C50_frame).  A gamma beyond the
    bound makes the covariance negative, without an exception. *)
Theorem C50_P_nonnegative_refuted :
  exists c s z, let r := hi_update c (Some (q11 z)) s in
  snd r = None /\ h_P s = q11 1 /\ redm (h_P (fst r)) = [[-2]].
Proof. exists (h1 2 1 1 1 0), (h1s 0 1 2), 1. vm_compute. repeat split. Qed.
Print Assumptions C50_P_nonnegative_refuted.

(** With gamma = 0 but F different from I it is not a Kalman filter: x is propagated by predict and the correction is
    multiplied by F a second time.  Predict and update from x = 0, P = 1 (the covariance of the prediction) with F = 2,
    H = V = 1 and z = 6: the Kalman estimate is x = 3, the filter gives 6. *)
Theorem C50_gamma_zero_is_kalman_refuted :
  exists (c : hi_cfg QO 1 1) (s : hi QO 1 1), let s1 := hi_predict c (@CtlZero QO 1 1) s in
  let r := hi_update c (Some (q11 6)) s1 in
  h_gamma c = 0 /\ h_P s1 = q11 1 /\ redm (h_x s1) = [[0]] /\ hx_ r = ([[6]], [[2]], None).
Proof. exists (h1 0 2 1 1 0), (h1s 0 1 1). vm_compute. repeat split. Qed.
Print Assumptions C50_gamma_zero_is_kalman_refuted.

(** Nor does uncertainty grow while measurements are missing: P stays as it was although W > 0. *)
Theorem C50_missing_measurements_grow_P_refuted :
  exists (c : hi_cfg QO 1 1) (s : hi QO 1 1), h_W c = q11 3 /\ h_P (hi_run (concat (map (epoch c false) [None; None; None])) s) = h_P s.
Proof. exists (h1 0 1 1 1 3), (h1s 0 1 1). vm_compute. repeat split. Qed.
Print Assumptions C50_missing_measurements_grow_P_refuted.
