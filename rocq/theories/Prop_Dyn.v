(** C63: shapes at run time.  The filter on arrays of any shape follows the typed model whenever
    the attributes and arguments have the documented shapes, with x a column or a 1-D array alike;
    what the dimension check accepts; and where NumPy's broadcasting silently changes the result. *)
From Coq Require Import List Arith Bool Lia QArith Eqdep_dec.
From Verif Require Import Ops ListOps Model_KF Model_Dyn.
Import ListNotations.
Set Implicit Arguments.
Unset Strict Implicit.
Local Close Scope Q_scope.
Local Open Scope nat_scope.

Lemma castM_refl (o : nops) (m n : nat) (X : M o m n) : castM m n X = Some X.
Proof.
  unfold castM. destruct (Nat.eq_dec m m) as [e|ne]; [|congruence]. destruct (Nat.eq_dec n n) as [f|nf]; [|congruence].
  rewrite (UIP_dec Nat.eq_dec e eq_refl), (UIP_dec Nat.eq_dec f eq_refl). reflexivity.
Qed.
Lemma castM_none (o : nops) (m n m' n' : nat) (X : M o m n) : (m <> m' \/ n <> n') -> castM m' n' X = None.
Proof. unfold castM. destruct (Nat.eq_dec m m'), (Nat.eq_dec n n'); intros [h|h]; congruence. Qed.

Ltac dsimp := cbn [dk_dim_x dk_dim_z dk_x dk_P dk_Q dk_B dk_F dk_H dk_R dk_alpha_sq dk_z dk_K dk_y dk_S dk_SI dk_inv
  dk_x_prior dk_P_prior dk_x_post dk_P_post set_x set_P set_z set_K set_y set_S set_SI set_prior set_post opt_or rbind a_T option_map fst snd].

Section Refine.
Variable o : nops.
Variables n m l : nat.
(** How the vectors of a filter are laid out: 1-D arrays or columns. *)
Definition vec (flat : bool) (k : nat) (v : M o k 1) : arr o := if flat then A1 v else A2 v.
Definition isvec (k : nat) (v : M o k 1) (a : arr o) : Prop := exists flat, a = vec flat v.

(** The object [d] holds the values of the typed filter [s], x being laid out as said.  (The saved
    copies may have either layout: the constructor makes columns.) *)
Record rep (flat : bool) (s : kf o n m l) (d : dk o) : Prop := mkRep {
  r_dx : dk_dim_x d = n; r_dz : dk_dim_z d = m;
  r_x : dk_x d = vec flat (kf_x s); r_P : dk_P d = A2 (kf_P s); r_Q : dk_Q d = A2 (kf_Q s);
  r_B : dk_B d = option_map A2 (kf_B s); r_F : dk_F d = A2 (kf_F s); r_H : dk_H d = A2 (kf_H s);
  r_R : dk_R d = A2 (kf_R s); r_a : dk_alpha_sq d = kf_alpha_sq s;
  r_z : match dk_z d with None => kf_z s = z_none (o := o) m | Some a => exists z : M o m 1, isvec z a /\ kf_z s = z_some z end;
  r_K : dk_K d = A2 (kf_K s); r_y : isvec (kf_y s) (dk_y d); r_S : dk_S d = A2 (kf_S s); r_SI : dk_SI d = A2 (kf_SI s);
  r_xp : isvec (kf_x_prior s) (dk_x_prior d); r_Pp : dk_P_prior d = A2 (kf_P_prior s);
  r_xq : isvec (kf_x_post s) (dk_x_post d); r_Pq : dk_P_post d = A2 (kf_P_post s);
  r_inv : @dk_inv o d m = kf_inv s
}.

(** Arguments: a scalar or a matrix; a measurement that reshape_z turns into [z], or that already
    has the layout of x when H is passed (then update does not call reshape_z). *)
Definition sm_arr (k : nat) (a : sm o k) : arr o := match a with Scal s => Sc s | Mat A => A2 A end.
Inductive call :=
| Pred (u : option (M o l 1)) (B : option (M o n l)) (F : option (M o n n)) (Q : option (sm o n))
| Upd (z : option (M o m 1)) (R : option (sm o m)) (H : option (M o m n)).
Inductive dcall :=
| DPred (u B F Q : option (arr o))
| DUpd (z R H : option (arr o)).
Inductive call_rep (flat : bool) : call -> dcall -> Prop :=
| RPred u B F Q : call_rep flat (Pred u B F Q)
    (DPred (option_map (@vec flat l) u) (option_map A2 B) (option_map A2 F) (option_map (@sm_arr n) Q))
| RNone R H R' H' : call_rep flat (Upd None R H) (DUpd None R' H')
| RUpd z z' R : a_reshape_z z' m (if flat then 1 else 2) = Ok (vec flat z) ->
    call_rep flat (Upd (Some z) R None) (DUpd (Some z') (option_map (@sm_arr m) R) None)
| RUpdH z R H : call_rep flat (Upd (Some z) R (Some H)) (DUpd (Some (vec flat z)) (option_map (@sm_arr m) R) (Some (A2 H))).

Definition step (c : call) (s : kf o n m l) : kf o n m l * option exn :=
  match c with Pred u B F Q => (kf_predict u B F Q s, None) | Upd z R H => kf_update z R H s end.
Definition dstep (c : dcall) (d : dk o) : dk o * option exn :=
  match c with DPred u B F Q => dk_predict u B F Q d | DUpd z R H => dk_update z R H d end.
(** A history: the object it leaves and the exceptions raised along the way. *)
Fixpoint run (cs : list call) (s : kf o n m l) : kf o n m l * list (option exn) :=
  match cs with [] => (s, []) | c :: cs => let '(s, e) := step c s in let '(s, es) := run cs s in (s, e :: es) end.
Fixpoint drun (cs : list dcall) (d : dk o) : dk o * list (option exn) :=
  match cs with [] => (d, []) | c :: cs => let '(d, e) := dstep c d in let '(d, es) := drun cs d in (d, e :: es) end.

Lemma or_eye_sm (k : nat) (A : M o k k) (a : option (sm o k)) : or_eye k (A2 A) (option_map (@sm_arr k) a) = A2 (sm_or A a).
Proof. destruct a as [[?|?]|]; reflexivity. Qed.
Lemma opt_or_A2 (p q : nat) (A : M o p q) (a : option (M o p q)) : opt_or (A2 A) (option_map A2 a) = A2 (opt_or A a).
Proof. destruct a; reflexivity. Qed.
Lemma dot22 (p q r : nat) (X : M o p q) (Y : M o q r) : a_dot (A2 X) (A2 Y) = Ok (A2 (mdot X Y)).
Proof. unfold a_dot. rewrite castM_refl. reflexivity. Qed.
Lemma dot2v (flat : bool) (p q : nat) (X : M o p q) (v : M o q 1) : a_dot (A2 X) (vec flat v) = Ok (vec flat (mdot X v)).
Proof. destruct flat; unfold a_dot, vec; rewrite castM_refl; reflexivity. Qed.
Lemma add22 (p q : nat) (X Y : M o p q) : a_add (A2 X) (A2 Y) = Ok (A2 (madd X Y)).
Proof. unfold a_add, a_op. rewrite castM_refl. reflexivity. Qed.
Lemma sub22 (p q : nat) (X Y : M o p q) : a_sub (A2 X) (A2 Y) = Ok (A2 (msub X Y)).
Proof. unfold a_sub, a_op. rewrite castM_refl. reflexivity. Qed.
Lemma addvv (flat : bool) (p : nat) (X Y : M o p 1) : a_add (vec flat X) (vec flat Y) = Ok (vec flat (madd X Y)).
Proof. destruct flat; unfold a_add, a_op, vec; rewrite castM_refl; reflexivity. Qed.
Lemma subvv (flat : bool) (p : nat) (X Y : M o p 1) : a_sub (vec flat X) (vec flat Y) = Ok (vec flat (msub X Y)).
Proof. destruct flat; unfold a_sub, a_op, vec; rewrite castM_refl; reflexivity. Qed.
Lemma inv2 (inv : forall k, M o k k -> option (M o k k)) (k : nat) (X : M o k k) :
  a_inv inv (A2 X) = match inv k X with Some Y => Ok (A2 Y) | None => Err LinAlgError end.
Proof. unfold a_inv. rewrite castM_refl. reflexivity. Qed.

Lemma step_rep (flat : bool) (c : call) (dc : dcall) (s : kf o n m l) (d : dk o) :
  call_rep flat c dc -> rep flat s d ->
  rep flat (fst (step c s)) (fst (dstep dc d)) /\ snd (dstep dc d) = snd (step c s).
Proof.
  intros h r. destruct d as [dx dz x P Q B F H R al z K y Sm SI xp Pp xq Pq inv].
  destruct r; cbn in *. subst.
  destruct h as [u B F Q|R H R' H'|z1 z' R e|z1 R H]; cbn [dstep step].
  - unfold dk_predict, kf_predict; cbn.
    rewrite opt_or_A2, or_eye_sm.
    assert (EB : match option_map A2 B with Some _ => option_map A2 B | None => option_map A2 (kf_B s) end
                 = option_map (@A2 o n l) (B_or (kf_B s) B)) by (destruct B; reflexivity).
    rewrite EB. rewrite dot2v.
    assert (EX : match option_map (@A2 o n l) (B_or (kf_B s) B) with
                 | Some B0 => match option_map (@vec flat l) u with
                              | Some u0 => rbind (Ok (vec flat (mdot (opt_or (kf_F s) F) (kf_x s)))) (fun Fx => rbind (a_dot B0 u0) (fun Bu => a_add Fx Bu))
                              | None => Ok (vec flat (mdot (opt_or (kf_F s) F) (kf_x s))) end
                 | None => Ok (vec flat (mdot (opt_or (kf_F s) F) (kf_x s))) end
                 = Ok (vec flat (apply_control (opt_or (kf_F s) F) (kf_x s) (B_or (kf_B s) B) u))).
    { unfold apply_control. destruct (B_or (kf_B s) B); cbn [option_map rbind]; [destruct u; cbn [option_map rbind]|]; try reflexivity.
      rewrite dot2v; cbn [rbind]. apply addvv. }
    rewrite EX. rewrite dot22; cbn [rbind a_T]. rewrite dot22; cbn [rbind a_scale]. rewrite add22.
    cbn. split; [|reflexivity]. constructor; cbn; try reflexivity; try assumption; try (eexists; reflexivity).
  - cbn. split; [|reflexivity]. constructor; cbn; try reflexivity; try assumption; try (exists flat; reflexivity). exists false; reflexivity.
  - unfold dk_update; dsimp.
    assert (Ex : ndim (vec flat (kf_x s)) = if flat then 1 else 2) by (destruct flat; reflexivity).
    rewrite Ex, e.
    rewrite or_eye_sm. rewrite dot2v; dsimp. rewrite subvv; dsimp.
    rewrite dot22; dsimp. rewrite dot22; dsimp. rewrite add22; dsimp.
    rewrite inv2; dsimp. rewrite r_inv0. unfold clear_caches; cbn [kf_update opt_or].
    unfold kf_update; cbn [kf_inv set_kf_S set_kf_y clear_caches set_kf_mahal set_kf_lik set_kf_loglik kf_R kf_H kf_x kf_P opt_or].
    destruct (kf_inv s _) as [W|] eqn:EW; cbn [fst snd].
    + rewrite dot22; dsimp. rewrite dot2v; dsimp. rewrite addvv; dsimp.
      rewrite dot22; dsimp. rewrite sub22; dsimp.
      rewrite dot22; dsimp. rewrite dot22; dsimp. rewrite dot22; dsimp. rewrite dot22; dsimp. rewrite add22; dsimp.
      cbn. split; [|reflexivity]. constructor; cbn; try reflexivity; try assumption; try (exists flat; reflexivity).
      exists z1; split; [exists flat; reflexivity|reflexivity].
    + split; [|reflexivity]. constructor; cbn; try reflexivity; try assumption; try (exists flat; reflexivity).
  - unfold dk_update; dsimp.
    rewrite or_eye_sm. rewrite dot2v; dsimp. rewrite subvv; dsimp.
    rewrite dot22; dsimp. rewrite dot22; dsimp. rewrite add22; dsimp.
    rewrite inv2; dsimp. rewrite r_inv0. unfold clear_caches; cbn [kf_update opt_or].
    unfold kf_update; cbn [kf_inv set_kf_S set_kf_y clear_caches set_kf_mahal set_kf_lik set_kf_loglik kf_R kf_H kf_x kf_P opt_or].
    destruct (kf_inv s _) as [W|] eqn:EW; cbn [fst snd].
    + rewrite dot22; dsimp. rewrite dot2v; dsimp. rewrite addvv; dsimp.
      rewrite dot22; dsimp. rewrite sub22; dsimp.
      rewrite dot22; dsimp. rewrite dot22; dsimp. rewrite dot22; dsimp. rewrite dot22; dsimp. rewrite add22; dsimp.
      cbn. split; [|reflexivity]. constructor; cbn; try reflexivity; try assumption; try (exists flat; reflexivity).
      exists z1; split; [exists flat; reflexivity|reflexivity].
    + split; [|reflexivity]. constructor; cbn; try reflexivity; try assumption; try (exists flat; reflexivity).
Qed.

(** Over every history of predictions and updates with arguments of the documented shapes,
    failing updates included, the object keeps the values of the typed filter and raises the same
    exceptions: no shape error, and x keeps its layout. *)
Theorem C63_run : forall (flat : bool) (cs : list call) (ds : list dcall) (s : kf o n m l) (d : dk o),
  Forall2 (call_rep flat) cs ds -> rep flat s d ->
  rep flat (fst (run cs s)) (fst (drun ds d)) /\ snd (drun ds d) = snd (run cs s).
Proof.
  intros flat cs ds s d h. revert s d. induction h as [|c dc cs ds hc _ IH]; intros s d r; [auto|].
  cbn. destruct (step_rep hc r) as [r' e'].
  destruct (step c s) as [s1 e1], (dstep dc d) as [d1 f1]; cbn in *. subst f1.
  destruct (IH _ _ r') as [r2 e2]. destruct (run cs s1), (drun ds d1); cbn in *. subst. auto.
Qed.

(** The values of an object, whatever the layout of its vectors. *)
Definition entries (a : arr o) : list (list (sc o)) :=
  match a with
  | Sc a => [[a]]
  | @A1 _ k v => map (fun i => [mget v i 0]) (seq 0 k)
  | @A2 _ p q X => map (fun i => map (mget X i) (seq 0 q)) (seq 0 p)
  end.

(** The same history on a filter with column vectors and on one with 1-D vectors: the same numbers,
    the same exceptions. *)
Theorem C63_layout : forall (cs : list call) (ds1 ds2 : list dcall) (s : kf o n m l) (d1 d2 : dk o),
  Forall2 (call_rep false) cs ds1 -> Forall2 (call_rep true) cs ds2 -> rep false s d1 -> rep true s d2 ->
  let e1 := fst (drun ds1 d1) in let e2 := fst (drun ds2 d2) in
  shape (dk_x e1) = [n; 1] /\ shape (dk_x e2) = [n] /\ entries (dk_x e1) = entries (dk_x e2) /\
  dk_P e1 = dk_P e2 /\ entries (dk_x_prior e1) = entries (dk_x_prior e2) /\ entries (dk_x_post e1) = entries (dk_x_post e2) /\
  entries (dk_y e1) = entries (dk_y e2) /\ dk_K e1 = dk_K e2 /\ dk_S e1 = dk_S e2 /\
  snd (drun ds1 d1) = snd (drun ds2 d2).
Proof.
  intros cs ds1 ds2 s d1 d2 h1 h2 r1 r2 e1 e2.
  destruct (C63_run h1 r1) as [R1 x1]. destruct (C63_run h2 r2) as [R2 x2]. fold e1 in R1; fold e2 in R2.
  clearbody e1 e2. destruct R1, R2.
  assert (V : forall (k : nat) (v : M o k 1) a b, isvec v a -> isvec v b -> entries a = entries b).
  { assert (W : forall (k : nat) (v : M o k 1) a, isvec v a -> entries a = entries (A1 v)) by (intros k v a [[|] ->]; reflexivity).
    intros k v a b ha hb. rewrite (W _ _ _ ha), (W _ _ _ hb). reflexivity. }
  repeat split; try congruence.
  - rewrite r_x0; reflexivity.
  - rewrite r_x1; reflexivity.
  - apply (V _ (kf_x (fst (run cs s)))); [rewrite r_x0|rewrite r_x1]; eexists; reflexivity.
  - eapply V; eassumption.
  - eapply V; eassumption.
  - eapply V; eassumption.
Qed.

(** What update accepts as a measurement when H is not passed: a number if dim_z = 1, dim_z values
    in a 1-D array, a row or a column; the result has the layout of x and the same entries. *)
Definition meas_shape (s : list nat) : Prop := (s = [] /\ m = 1) \/ s = [m] \/ s = [1; m] \/ s = [m; 1].
Theorem C63_measurement : forall (z : arr o),
  (~ meas_shape (shape z) -> forall k, a_reshape_z z m k = Err ValueError) /\
  (meas_shape (shape z) -> exists v : M o m 1, (forall flat : bool, a_reshape_z z m (if flat then 1 else 2) = Ok (vec flat v)) /\
     ((forall p q (f : nat -> nat -> sc o) i j, i < p -> j < q -> mget (mfun p q f) i j = f i j) ->
      (forall p q (X : M o p q) i j, i < q -> j < p -> mget (mtr X) i j = mget X j i) ->
      forall i, i < m -> mget v i 0 = nth i (concat (entries z)) (s0 o))).
Proof.
  assert (E1 : forall (k : nat) (f : nat -> sc o) i, i < k -> nth i (concat (map (fun i => [f i]) (seq 0 k))) (s0 o) = f i).
  { intros k f i hi. assert (C : concat (map (fun i => [f i]) (seq 0 k)) = map f (seq 0 k))
      by (induction (seq 0 k); cbn; congruence). rewrite C.
    rewrite (nth_indep _ (s0 o) (f 0)) by (rewrite map_length, seq_length; exact hi).
    rewrite map_nth, seq_nth by exact hi. reflexivity. }
  assert (E2 : forall (k : nat) (f : nat -> sc o) i, i < k -> nth i (concat [map f (seq 0 k)]) (s0 o) = f i).
  { intros k f i hi. cbn. rewrite app_nil_r.
    rewrite (nth_indep _ (s0 o) (f 0)) by (rewrite map_length, seq_length; exact hi).
    rewrite map_nth, seq_nth by exact hi. reflexivity. }
  assert (OK : forall (Z : M o m 1), forall flat : bool, (match castM m 1 Z with None => Err ValueError
     | Some Z => if (if flat then 1 else 2) =? 1 then Ok (A1 Z) else if (if flat then 1 else 2) =? 0 then
                  (if m =? 0 then Err IndexError else Ok (Sc (mget Z 0 0))) else Ok (A2 Z) end) = Ok (vec flat Z)).
  { intros Z [|]; rewrite castM_refl; reflexivity. }
  intros z. unfold meas_shape, a_reshape_z. destruct z as [a|k v|p q X]; cbn [shape a_2d].
  - destruct (1 =? m) eqn:e.
    + apply Nat.eqb_eq in e. split; [intros h; exfalso; apply h; auto|intros _]. rewrite <- e in *.
      exists (mtr (mfun 1 1 (fun _ _ => a))). split; [intros flat; apply OK|].
      intros l1 l2 i hi. assert (i = 0) by lia. subst i. rewrite l2, l1 by lia. reflexivity.
    + apply Nat.eqb_neq in e. split; [intros _ k; rewrite castM_none by (left; congruence); reflexivity|].
      intros [[_ h]|[h|[h|h]]]; [congruence|discriminate|discriminate|discriminate].
  - destruct (k =? m) eqn:e.
    + apply Nat.eqb_eq in e. subst k. split; [intros h; exfalso; apply h; auto|intros _].
      exists (mtr (mtr v)). split; [intros flat; apply OK|].
      intros _ l2 i hi. rewrite !l2 by lia. cbn [entries]. rewrite (E1 m (fun i => mget v i 0)) by exact hi. reflexivity.
    + apply Nat.eqb_neq in e. split.
      * intros h j. destruct (Nat.eq_dec m 1) as [e1|n1].
        { rewrite castM_none by (right; congruence). reflexivity. }
        { rewrite castM_none by (left; congruence). reflexivity. }
      * intros [[h _]|[h|[h|h]]]; [discriminate|congruence|discriminate|discriminate].
  - destruct (q =? m) eqn:e.
    + apply Nat.eqb_eq in e. subst q. destruct (Nat.eq_dec p 1) as [e1|n1].
      * subst p. split; [intros h; exfalso; apply h; auto|intros _].
        exists (mtr X). split; [intros flat; apply OK|].
        intros _ l2 i hi. rewrite l2 by lia. cbn [entries]. change (map _ (seq 0 1)) with [map (mget X 0) (seq 0 m)].
        rewrite E2 by exact hi. reflexivity.
      * split; [intros _ j; rewrite castM_none by (right; congruence); reflexivity|].
        intros [[h _]|[h|[h|h]]]; congruence.
    + apply Nat.eqb_neq in e. destruct (Nat.eq_dec p m) as [e1|n1]; [destruct (Nat.eq_dec q 1) as [e2|n2]|].
      * subst p q. split; [intros h; exfalso; apply h; auto|intros _].
        exists X. split; [intros flat; apply OK|].
        intros _ _ i hi. cbn [entries]. change (map (mget X ?i) (seq 0 1)) with [mget X i 0].
        rewrite (E1 m (fun i => mget X i 0)) by exact hi. reflexivity.
      * split; [intros _ j; rewrite castM_none by (right; congruence); reflexivity|].
        intros [[h _]|[h|[h|h]]]; congruence.
      * split; [intros _ j; rewrite castM_none by (left; congruence); reflexivity|].
        intros [[h _]|[h|[h|h]]]; congruence.
Qed.

(** A new object, and one whose x has been replaced by a 1-D array, are such objects. *)
Lemma rep_init (fmin : sc o) (inv : forall k, M o k k -> option (M o k k)) :
  rep false (kf_init n m l fmin (inv m)) (dk_init n m inv) /\
  forall v : M o n 1, rep true (set_kf_x v (kf_init n m l fmin (inv m))) (set_x (A1 v) (dk_init n m inv)).
Proof. split; [|intros v]; constructor; cbn; try reflexivity; exists false; reflexivity. Qed.
End Refine.
Print Assumptions C63_run.
Print Assumptions C63_layout.
Print Assumptions C63_measurement.

(** ** Where broadcasting silently changes the result. *)
Section Broadcast.
Variable o : nops.

Lemma bdim_1r (k : nat) : bdim k 1 = Some k.
Proof. unfold bdim. destruct (k =? 1) eqn:e; [apply Nat.eqb_eq in e; subst; reflexivity|reflexivity]. Qed.
Lemma bdim_1l (k : nat) : bdim 1 k = Some k.
Proof. unfold bdim. destruct k as [|[|k]]; reflexivity. Qed.
Lemma bdim_refl (k : nat) : bdim k k = Some k.
Proof. unfold bdim. rewrite Nat.eqb_refl. reflexivity. Qed.

(** A control vector whose layout is not that of x (a 1-D u with a column x, or a column u with a
    1-D x): predict raises nothing and leaves x an n by n array. *)
Theorem C63_control_layout_refuted : forall (n m l : nat) (flat : bool) (s : kf o n m l) (d : dk o)
    (B : M o n l) (u : M o l 1),
  rep flat s d ->
  snd (dk_predict (Some (vec (negb flat) u)) (Some (A2 B)) None None d) = None /\
  shape (dk_x (fst (dk_predict (Some (vec (negb flat) u)) (Some (A2 B)) None None d))) = [n; n].
Proof.
  intros n m l flat s d B u r. destruct d as [dx dz x P Q B0 F H R al z K y Sm SI xp Pp xq Pq inv].
  destruct r; cbn in * |-. subst. unfold dk_predict; dsimp. rewrite !dot2v; dsimp.
  assert (E : exists X, a_add (vec flat (mdot (kf_F s) (kf_x s))) (vec (negb flat) (mdot B u)) = Ok X /\ shape X = [n; n]).
  { destruct flat; cbn [vec negb]; unfold a_add, a_op, bcast2; rewrite ?bdim_1r, ?bdim_1l; eexists; split; reflexivity. }
  destruct E as [X [-> sX]]. dsimp. rewrite dot22; dsimp. rewrite dot22; dsimp. cbn [a_scale or_eye]. rewrite add22; dsimp.
  split; [reflexivity|exact sX].
Qed.

(** When H is passed update does not reshape the measurement: one whose layout is not that of x
    (with a column x, a 1-D z) raises nothing and leaves x of shape (n, m). *)
Theorem C63_H_override_refuted : forall (n m l : nat) (s : kf o n m l) (d : dk o) (z : M o m 1) (H : M o m n) (SI : M o m m),
  rep false s d -> kf_inv s (madd (mdot H (mdot (kf_P s) (mtr H))) (kf_R s)) = Some SI ->
  snd (dk_update (Some (A1 z)) None (Some (A2 H)) d) = None /\
  shape (dk_x (fst (dk_update (Some (A1 z)) None (Some (A2 H)) d))) = [n; m].
Proof.
  intros n m l s d z H SI0 r hi. destruct d as [dx dz x P Q B0 F H0 R al z0 K y Sm SI xp Pp xq Pq inv].
  destruct r; cbn in * |-. subst. unfold dk_update; dsimp. cbn [or_eye]. unfold vec.
  rewrite dot22; dsimp. 
  assert (E0 : forall w : M o m 1, exists Y : M o m m, a_sub (A1 z) (A2 w) = Ok (A2 Y)).
  { intros w. unfold a_sub, a_op, bcast2. rewrite bdim_1l, bdim_1r. eexists; reflexivity. }
  destruct (E0 (mdot H (kf_x s))) as [Y EY]. rewrite EY. dsimp.
  rewrite dot22; dsimp. rewrite dot22; dsimp. rewrite add22; dsimp. rewrite inv2; dsimp. rewrite r_inv0, hi. dsimp.
  rewrite dot22; dsimp. rewrite dot22; dsimp.
  match goal with |- context [a_add (A2 (kf_x s)) (A2 ?Y)] =>
    assert (E : exists X, a_add (A2 (kf_x s)) (A2 Y) = Ok X /\ shape X = [n; m]) end.
  { unfold a_add, a_op. destruct (Nat.eq_dec m 1) as [e|e].
    - subst m. rewrite castM_refl. eexists; split; reflexivity.
    - rewrite castM_none by (right; exact e). unfold bcast2. rewrite bdim_refl, bdim_1l. eexists; split; reflexivity. }
  destruct E as [X [-> sX]]. dsimp.
  rewrite dot22; dsimp. rewrite sub22; dsimp.
  rewrite dot22; dsimp. rewrite dot22; dsimp. rewrite dot22; dsimp. rewrite dot22; dsimp. rewrite add22; dsimp.
  split; [reflexivity|exact sX].
Qed.

(** A number as the argument R of update means R times the identity; assigned to the attribute R
    it is added to every entry of H P H', off-diagonal ones included. *)
Theorem C63_scalar_R_attribute_refuted : forall (n m l : nat) (flat : bool) (s : kf o n m l) (d : dk o) (z : arr o) (v : M o m 1) (r : sc o),
  rep flat s d -> a_reshape_z z m (if flat then 1 else 2) = Ok (vec flat v) ->
  let HPH := mdot (kf_H s) (mdot (kf_P s) (mtr (kf_H s))) in
  dk_S (fst (dk_update (Some z) (Some (Sc r)) None d)) = A2 (madd HPH (mscale r (meye m))) /\
  dk_S (fst (dk_update (Some z) None None (set_R (Sc r) d))) = A2 (mmap (fun a => sadd o a r) HPH).
Proof.
  intros n m l flat s d z v r R e HPH.
  assert (Ex : ndim (vec flat (kf_x s)) = if flat then 1 else 2) by (destruct flat; reflexivity).
  destruct d as [dx dz x P Q B0 F H0 R0 al z0 K y Sm SI xp Pp xq Pq inv].
  destruct R; cbn in * |-. subst. split.
  - unfold dk_update; dsimp. rewrite Ex, e. rewrite dot2v; dsimp. rewrite subvv; dsimp. cbn [or_eye].
    rewrite dot22; dsimp. rewrite dot22; dsimp. rewrite add22; dsimp. fold HPH.
    repeat match goal with |- context [match ?t with Ok _ => _ | Err _ => _ end] => destruct t; [|reflexivity] end. reflexivity.
  - unfold dk_update, set_R; dsimp. rewrite Ex, e. rewrite dot2v; dsimp. rewrite subvv; dsimp. cbn [or_eye].
    rewrite dot22; dsimp. rewrite dot22; dsimp. fold HPH. change (a_add (A2 HPH) (Sc r)) with (@Ok (arr o) (A2 (mmap (fun a => sadd o a r) HPH))). dsimp.
    repeat match goal with |- context [match ?t with Ok _ => _ | Err _ => _ end] => destruct t; [|reflexivity] end. reflexivity.
Qed.
End Broadcast.
Print Assumptions C63_control_layout_refuted.
Print Assumptions C63_H_override_refuted.
Print Assumptions C63_scalar_R_attribute_refuted.

(** ** The dimension check. *)
Lemma sh_eqb_iff (s t : list nat) : sh_eqb s t = true <-> s = t.
Proof. unfold sh_eqb. destruct (list_eq_dec Nat.eq_dec s t); split; congruence. Qed.

(** What it accepts: x, P, Q, F of the documented shapes, H an array of any number of rows, R a
    square of that size (or a one element value), and of the measurement this. *)
Definition z_accepted (dim_x rows : nat) (x zs : list nat) : Prop :=
  (x = [dim_x] /\ (zs = [] \/ zs = [rows] \/ (rows = 1 /\ exists t, zs = 1 :: t))) \/
  (x = [dim_x; 1] /\ (zs = [rows; 1] \/ (rows = 1 /\ (zs = [] \/ zs = [1])))).
Definition R_accepted (rows : nat) (rs : list nat) : Prop :=
  rs = [rows; rows] \/ (rows = 1 /\ (rs = [] \/ rs = [1])).

Lemma assert_iff (b : bool) (A : Type) (k : unit -> res A) (v : A) : rbind (assert_ b) k = Ok v <-> b = true /\ k tt = Ok v.
Proof. destruct b; cbn; split; [auto|intros [_ h]; exact h|discriminate|intros [h _]; discriminate]. Qed.
Lemma assert_ok (b : bool) : assert_ b = Ok tt <-> b = true.
Proof. destruct b; cbn; split; auto; discriminate. Qed.
Lemma bind_tt (r : res unit) (A : Type) (k : unit -> res A) (v : A) : rbind r k = Ok v <-> r = Ok tt /\ k tt = Ok v.
Proof. destruct r as [[]|]; cbn; split; auto; try discriminate; intros [h1 h2]; auto; discriminate. Qed.
Lemma at_shape_iff (p : pyval) (A : Type) (k : list nat -> res A) (v : A) : rbind (at_shape p) k = Ok v <-> exists s, p = PArr s /\ k s = Ok v.
Proof.
  destruct p as [s|s|]; cbn; split.
  - intros h; exists s; auto.
  - intros [t [e h]]. injection e as <-. exact h.
  - discriminate.
  - intros [t [e _]]; discriminate.
  - discriminate.
  - intros [t [e _]]; discriminate.
Qed.

Lemma R_ok (rows : nat) (rs : list nat) :
  (if rows =? 1 then assert_ (sh_eqb rs [] || sh_eqb rs [1] || sh_eqb rs [1; 1]) else assert_ (sh_eqb rs [rows; rows])) = Ok tt
  <-> R_accepted rows rs.
Proof.
  unfold R_accepted. destruct (rows =? 1) eqn:e; [apply Nat.eqb_eq in e|apply Nat.eqb_neq in e]; rewrite assert_ok.
  - rewrite !orb_true_iff, !sh_eqb_iff. subst rows. tauto.
  - rewrite sh_eqb_iff. tauto.
Qed.

Lemma z_ok (dim_x rows : nat) (x zs : list nat) : (x = [dim_x] \/ x = [dim_x; 1]) ->
  rbind (dot_shape [rows; dim_x] x) (fun Hx =>
  rbind (if sh_eqb zs [] then assert_ ((length Hx =? 1) || sh_eqb Hx [1; 1])
         else if sh_eqb Hx [1] then assert_ (nth 0 zs 0 =? 1)
         else assert_ (sh_eqb zs Hx || ((length zs =? 1) && sh_eqb Hx [nth 0 zs 0; 1]))) (fun _ =>
  if (1 <? length Hx) && negb (sh_eqb Hx [1; 1]) then assert_ (sh_eqb Hx zs) else Ok tt)) = Ok tt
  <-> z_accepted dim_x rows x zs.
Proof.
  unfold z_accepted. intros [-> | ->]; cbn [dot_shape]; rewrite Nat.eqb_refl; cbn [rbind length]; rewrite bind_tt.
  - cbn [Nat.ltb Nat.leb andb Nat.eqb orb].
    assert (X : forall P Q : Prop, ([dim_x] = [dim_x] /\ P) \/ ([dim_x] = [dim_x; 1] /\ Q) <-> P).
    { intros P Q; split; [intros [[_ h]|[h _]]; [exact h|discriminate]|auto]. }
    rewrite X. destruct zs as [|a t]; [cbn; tauto|].
    replace (sh_eqb (a :: t) []) with false by reflexivity.
    destruct (sh_eqb [rows] [1]) eqn:e.
    + apply sh_eqb_iff in e. injection e as ->. rewrite assert_ok. cbn [nth]. rewrite Nat.eqb_eq. split.
      * intros [-> _]. right; right. split; [reflexivity|exists t; reflexivity].
      * intros [h|[h|[_ [t' h]]]]; [discriminate|injection h as -> ->|injection h as -> ->]; auto.
    + assert (r1 : rows <> 1) by (intros ->; cbn in e; discriminate).
      rewrite assert_ok, orb_true_iff, andb_true_iff, !sh_eqb_iff. cbn [nth length]. split.
      * intros [[h|[_ h]] _]; [auto|discriminate].
      * intros [h|[h|[h _]]]; [discriminate|auto|congruence].
  - cbn [Nat.ltb Nat.leb andb Nat.eqb orb].
    assert (X : forall P Q : Prop, ([dim_x; 1] = [dim_x] /\ P) \/ ([dim_x; 1] = [dim_x; 1] /\ Q) <-> Q).
    { intros P Q; split; [intros [[h _]|[_ h]]; [discriminate|exact h]|auto]. }
    rewrite X. replace (sh_eqb [rows; 1] [1]) with false by (unfold sh_eqb; destruct (list_eq_dec Nat.eq_dec [rows; 1] [1]); congruence).
    destruct (sh_eqb [rows; 1] [1; 1]) eqn:e; [apply sh_eqb_iff in e; injection e as ->|].
    + cbn [negb]. destruct zs as [|a t]; [cbn; split; auto|]. replace (sh_eqb (a :: t) []) with false by reflexivity.
      rewrite assert_ok, orb_true_iff, andb_true_iff, !sh_eqb_iff. cbn [nth length]. split.
      * intros [[h|[h k]] _]; [auto|]. right. split; [reflexivity|right]. destruct t; [|cbn in h; discriminate]. congruence.
      * intros [h|[_ [h|h]]]; [rewrite h; auto|discriminate|injection h as -> ->; auto].
    + assert (r1 : rows <> 1) by (intros ->; cbn in e; discriminate). cbn [negb].
      rewrite assert_ok, sh_eqb_iff. destruct zs as [|a t].
      * cbn. split; [intros [_ h]; discriminate|intros [h|[h _]]; [discriminate|congruence]].
      * replace (sh_eqb (a :: t) []) with false by reflexivity.
        rewrite assert_ok, orb_true_iff, andb_true_iff, !sh_eqb_iff. split; [intros [_ h]; auto|].
        intros [h|[h _]]; [rewrite h; auto|congruence].
Qed.

Theorem C63_check : forall (dim_x dim_z : nat) (x : list nat) (P Q F H R : pyval) (z : option pyval),
  test_matrix_dimensions dim_x dim_z x P Q F H R z = Ok tt <->
  (x = [dim_x] \/ x = [dim_x; 1]) /\
  P = PArr [dim_x; dim_x] /\ Q = PArr [dim_x; dim_x] /\ F = PArr [dim_x; dim_x] /\
  exists rows, H = PArr [rows; dim_x] /\ R_accepted rows (np_shape R) /\
    z_accepted dim_x rows x (match z with Some z => np_shape z | None => [dim_z; 1] end).
Proof.
  intros dim_x dim_z x P Q F H R z. unfold test_matrix_dimensions.
  set (zs := match z with Some z => np_shape z | None => [dim_z; 1] end).
  rewrite assert_iff, bind_tt, at_shape_iff.
  assert (X : ((length x =? 1) || (length x =? 2) = true /\
     (if length x =? 1 then assert_ (nth 0 x 0 =? dim_x) else assert_ (sh_eqb x [dim_x; 1])) = Ok tt) <-> (x = [dim_x] \/ x = [dim_x; 1])).
  { destruct x as [|a [|b [|c x]]]; cbn [length Nat.eqb orb nth].
    - split; [intros [h _]; discriminate|intros [h|h]; discriminate].
    - rewrite assert_ok, Nat.eqb_eq. split; [intros [_ ->]; auto|intros [h|h]; [injection h as ->; auto|discriminate]].
    - rewrite assert_ok, sh_eqb_iff. split; [intros [_ h]; auto|intros [h|h]; [discriminate|auto]].
    - split; [intros [h _]; discriminate|intros [h|h]; discriminate]. }
  split.
  - intros [h1 [h2 [Ps [-> h]]]]. assert (hx : x = [dim_x] \/ x = [dim_x; 1]) by (apply X; auto). split; [exact hx|].
    rewrite assert_iff, sh_eqb_iff in h. destruct h as [-> h].
    rewrite at_shape_iff in h. destruct h as [Qs [-> h]]. rewrite assert_iff, sh_eqb_iff in h. destruct h as [-> h].
    rewrite at_shape_iff in h. destruct h as [Fs [-> h]]. rewrite assert_iff, sh_eqb_iff in h. destruct h as [-> h].
    rewrite assert_iff, Nat.eqb_eq in h. destruct h as [hl h].
    rewrite at_shape_iff in h. destruct h as [Hs [-> h]]. cbn [np_shape] in hl.
    destruct Hs as [|rows [|c [|? ?]]]; try discriminate hl.
    rewrite assert_iff, Nat.eqb_eq in h. cbn [nth] in h. destruct h as [-> h]. rewrite bind_tt, R_ok in h. destruct h as [hR h].
    rewrite z_ok in h by exact hx. repeat split. exists rows. auto.
  - intros [hx [-> [-> [-> [rows [-> [hR hz]]]]]]]. apply X in hx as hx'. destruct hx' as [h1 h2].
    split; [exact h1|]. split; [exact h2|]. exists [dim_x; dim_x]. split; [reflexivity|].
    assert (S : sh_eqb [dim_x; dim_x] [dim_x; dim_x] = true) by (apply sh_eqb_iff; reflexivity).
    rewrite S. cbn [assert_ rbind at_shape]. rewrite S. cbn [assert_ rbind np_shape length nth Nat.eqb].
    rewrite Nat.eqb_refl. cbn [assert_ rbind]. rewrite bind_tt, R_ok. split; [exact hR|]. rewrite z_ok by exact hx. exact hz.
Qed.
Print Assumptions C63_check.

(** The check against what update really takes, for a filter whose H has dim_z rows: exactly these
    measurements pass the check although update rejects them, and exactly these are rejected
    although update takes them. *)
Theorem C63_check_vs_update_refuted : forall (n m : nat) (x zs : list nat), 0 < m ->
  (x = [n] -> (z_accepted n m x zs /\ ~ meas_shape m zs <->
                (m <> 1 /\ zs = []) \/ (m = 1 /\ exists t, zs = 1 :: t /\ t <> [] /\ t <> [1])) /\
              (meas_shape m zs /\ ~ z_accepted n m x zs <-> m <> 1 /\ (zs = [1; m] \/ zs = [m; 1]))) /\
  (x = [n; 1] -> (z_accepted n m x zs -> meas_shape m zs) /\
              (meas_shape m zs /\ ~ z_accepted n m x zs <-> m <> 1 /\ (zs = [m] \/ zs = [1; m]))).
Proof.
  intros n m x zs m0. unfold z_accepted, meas_shape. split; intros ->.
  - assert (X : forall P Q : Prop, ([n] = [n] /\ P) \/ ([n] = [n; 1] /\ Q) <-> P).
    { intros P Q; split; [intros [[_ h]|[h _]]; [exact h|discriminate]|auto]. }
    rewrite X. split; split.
    + intros [[->|[->|[-> [t ->]]]] h]; [left|exfalso; apply h; auto|right].
      * split; [intros ->; apply h; auto|reflexivity].
      * split; [reflexivity|]. exists t. split; [reflexivity|]. split; intros ->; apply h; auto.
    + intros [[h ->]|[-> [t [-> [h1 h2]]]]]; (split; [eauto|]); intros [[e1 e2]|[e|[e|e]]]; congruence.
    + intros [[[-> ->]|[->|[->| ->]]] h].
      * exfalso; apply h; auto.
      * exfalso; apply h; auto.
      * split; [intros ->; apply h; right; right; split; eauto|auto].
      * split; [intros ->; apply h; right; right; split; eauto|auto].
    + intros [h [->| ->]]; (split; [auto|]); intros [e|[e|[e _]]]; congruence.
  - assert (X : forall P Q : Prop, ([n; 1] = [n] /\ P) \/ ([n; 1] = [n; 1] /\ Q) <-> Q).
    { intros P Q; split; [intros [[h _]|[_ h]]; [discriminate|exact h]|auto]. }
    rewrite X. split; [|split].
    + intros [->|[-> [->| ->]]]; auto.
    + intros [[[-> ->]|[->|[->| ->]]] h].
      * exfalso; apply h; auto.
      * split; [intros ->; apply h; auto|auto].
      * split; [intros ->; apply h; auto|auto].
      * exfalso; apply h; auto.
    + intros [h [->| ->]]; (split; [auto|]); intros [e|[e _]]; congruence.
Qed.
Print Assumptions C63_check_vs_update_refuted.

(** Without a measurement the check assumes a column: it rejects every filter with a 1-D x and
    more than one measurement row, however well formed. *)
Theorem C63_check_default_refuted : forall (n rows dim_z : nat) (P Q F R : pyval), rows <> 1 ->
  test_matrix_dimensions n dim_z [n] P Q F (PArr [rows; n]) R None <> Ok tt.
Proof.
  intros n rows dim_z P Q F R h e. apply C63_check in e.
  destruct e as [_ [_ [_ [_ [r [eh [_ hz]]]]]]]. injection eh as <-.
  destruct hz as [[_ [e|[e|[e _]]]]|[e _]]; congruence.
Qed.
Print Assumptions C63_check_default_refuted.

(** A number for F means nothing to predict: it multiplies x by it, then raises AttributeError (a
    float has no transpose), so the caller who catches the exception has a moved x with the old P. *)
Theorem C63_scalar_F_refuted : forall (o : nops) (n m l : nat) (flat : bool) (s : kf o n m l) (d : dk o) (f : sc o),
  rep flat s d ->
  let d' := fst (dk_predict None None (Some (Sc f)) None d) in
  snd (dk_predict None None (Some (Sc f)) None d) = Some AttributeError /\
  dk_x d' = vec flat (mscale f (kf_x s)) /\ dk_P d' = A2 (kf_P s) /\
  dk_x_prior d' = dk_x_prior d /\ dk_P_prior d' = dk_P_prior d.
Proof.
  intros o n m l flat s d f r. destruct d as [dx dz x P Q B0 F H0 R al z0 K y Sm SI xp Pp xq Pq inv].
  destruct r; cbn in * |-. subst. cbv zeta. destruct flat, (kf_B s); repeat split; reflexivity.
Qed.
Print Assumptions C63_scalar_F_refuted.

(** A 1-D array for H (one measured quantity, several states) raises ValueError from every update,
    whatever the layout of x, after y, S and its inverse have been assigned; x and P are kept. *)
Theorem C63_flat_H_refuted : forall (o : nops) (n l : nat) (flat : bool) (s : kf o n 1 l) (d : dk o) (z : arr o) (h : M o n 1) (w : M o 1 1),
  rep flat s d -> n <> 1 -> a_reshape_z z 1 (if flat then 1 else 2) = Ok (vec flat w) ->
  let d' := fst (dk_update (Some z) None None (set_H (A1 h) d)) in
  let S := mmap (sadd o (mget (mdot (mtr h) (mdot (kf_P s) h)) 0 0)) (kf_R s) in
  snd (dk_update (Some z) None None (set_H (A1 h) d)) = Some (match kf_inv s S with Some _ => ValueError | None => LinAlgError end) /\
  dk_x d' = dk_x d /\ dk_P d' = dk_P d /\ dk_K d' = dk_K d /\ dk_S d' = A2 S /\
  (forall SI, kf_inv s S = Some SI -> dk_SI d' = A2 SI).
Proof.
  intros o n l flat s d z h w r hn e. destruct d as [dx dz x P Q B0 F H0 R al z0 K y Sm SI xp Pp xq Pq inv].
  assert (Ex : ndim (vec flat (kf_x s)) = if flat then 1 else 2) by (destruct flat; reflexivity).
  destruct r; cbn in * |-. subst. cbv zeta. unfold dk_update, set_H; dsimp. rewrite Ex, e. cbn [or_eye].
  assert (E : exists y, rbind (a_dot (A1 h) (vec flat (kf_x s))) (a_sub (vec flat w)) = Ok y).
  { destruct flat; cbn [vec a_dot]; rewrite castM_refl; dsimp; unfold a_sub, a_op, bcast2; cbn [bdim Nat.eqb]; eexists; reflexivity. }
  destruct E as [y' ->]. dsimp. cbn [a_dot]. rewrite castM_refl. dsimp. cbn [a_dot]. rewrite castM_refl. dsimp.
  cbn [a_add a_op]. dsimp. cbn [a_inv]. rewrite castM_refl. rewrite r_inv0.
  match goal with |- context [kf_inv s ?A] => destruct (kf_inv s A) as [SI'|] eqn:EI end; dsimp.
  - cbn [a_dot]. rewrite castM_none by (left; congruence). repeat split; try reflexivity; intros; dsimp; congruence.
  - repeat split; try reflexivity; intros; dsimp; congruence.
Qed.
Print Assumptions C63_flat_H_refuted.

(** ** Examples. *)
Definition qc (a b : Q) : M QO 2 1 := [[a]; [b]].
Definition qr (a b : Q) : M QO 1 2 := [[a; b]].
Definition qq (a b c d : Q) : M QO 2 2 := [[a; b]; [c; d]].
Definition qs (a : Q) : M QO 1 1 := [[a]].
Definition qn (a : Q) : arr QO := Sc (o := QO) a.
Definition qinv (k : nat) : M QO k k -> option (M QO k k) := match k with 1 => l_inv1 QS | 2 => l_inv2 QS | _ => fun _ => None end.
Definition ex_col : dk QO := set_H (A2 (qr 1 0)) (set_x (A2 (qc 1 2)) (dk_init (o := QO) 2 1 qinv)).
Definition ex_flat : dk QO := set_H (A2 (qr 1 0)) (set_x (A1 (qc 1 2)) (dk_init (o := QO) 2 1 qinv)).
(** One history on both layouts: a prediction with another F, updates with a number and with a row. *)
Example C63_example :
  let h := [DPred None None (Some (A2 (qq 1 1 0 1))) (Some (qn 2)); DUpd (Some (qn 5)) None None; DUpd (Some (A2 (qs 4))) (Some (qn 3)) None; DUpd None None None] in
  snd (drun h ex_col) = [None; None; None; None] /\ snd (drun h ex_flat) = [None; None; None; None] /\
  entries (dk_x (fst (drun h ex_col))) = entries (dk_x (fst (drun h ex_flat))) /\
  Forall2 Qeq (concat (entries (dk_x (fst (drun h ex_flat))))) [85 # 19; 45 # 19]%Q.
Proof. vm_compute. repeat split; repeat constructor. Qed.
(** The corruptions, in numbers. *)
Example C63_corruption_example :
  let d := fst (dk_predict (Some (A1 (qs 1))) (Some (A2 (qc 1 1))) None None ex_col) in
  shape (dk_x d) = [2; 2] /\
  let e := set_R (qn 5) (set_H (A2 (qq 1 0 0 1)) (dk_init (o := QO) 2 2 qinv)) in
  Forall2 Qeq (concat (entries (dk_S (fst (dk_update (Some (A1 (qc 1 1))) None None e))))) [6; 5; 5; 6]%Q /\
  shape (dk_x (fst (dk_update (Some (A1 (qc 1 1))) None (Some (A2 (qq 1 0 0 1))) e))) = [2; 2] /\
  test_matrix_dimensions 2 2 [2] (PArr [2; 2]) (PArr [2; 2]) (PArr [2; 2]) (PArr [2; 2]) (PArr [2; 2]) (Some PNum) = Ok tt /\
  snd (dk_update (Some (qn 1)) None None (set_x (A1 (qc 0 0)) e)) = Some ValueError.
Proof. vm_compute. repeat split; repeat constructor. Qed.
Example C63_rank_example :
  snd (dk_predict None None (Some (qn 2)) None ex_col) = Some AttributeError /\
  entries (dk_x (fst (dk_predict None None (Some (qn 2)) None ex_col))) = [[2%Q]; [4%Q]] /\
  snd (dk_update (Some (qn 5)) None None (set_H (A1 (qc 1 0)) ex_col)) = Some ValueError.
Proof. vm_compute. repeat split. Qed.
