(** * Statistical meaning of the variance and bias formulas: C53, C56. *)
From Coq Require Import List Reals Lra Lia Psatz Arith.
From Verif Require Import Ops RealOps Model_GH Spec_GH Proof_GH.
Import ListNotations.
Open Scope R_scope.

(** ** C53.  A member of the ensemble is a filter and the measurement it receives.
    All filters have the parameters of [f]; the target is at p with velocity v. *)
Section GHMoments.
Variables (f : gh RS) (e : list (R * (gh RS * R))) (p v s2 : R).
Definition like_gh : Prop :=
  Forall (fun wa => gh_dt (fst (snd wa)) = gh_dt f /\ gh_g (fst (snd wa)) = gh_g f /\ gh_h (fst (snd wa)) = gh_h f) e.
Definition ge_x (m : gh RS * R) := gh_x (fst m) - p.
Definition ge_dx (m : gh RS * R) := gh_dx (fst m) - v.
(** The measurement error: the target is at p + v dt when it is measured. *)
Definition ge_n (m : gh RS * R) := snd m - (p + v * gh_dt f).
(** Measurement errors of variance s2, uncorrelated with the current errors. *)
Definition white_gh : Prop :=
  ex e (fun m => ge_n m ^ 2) = s2 /\ ex e (fun m => ge_n m * ge_x m) = 0 /\ ex e (fun m => ge_n m * ge_dx m) = 0.
(** The updated ensemble. *)
Definition upd_gh := emap (fun m => gh_update (o:=RS) (snd m) None None (fst m)) e.
End GHMoments.

Lemma gh_moments_step f e p v s2 : gh_dt f <> 0 -> like_gh f e -> white_gh f e p v s2 ->
  let dt := gh_dt f in let g := gh_g f in let h := gh_h f in
  let a := ex e (fun m => ge_x p m ^ 2) in let b := ex e (fun m => ge_x p m * ge_dx v m) in
  let c := ex e (fun m => ge_dx v m ^ 2) in
  let m11 := a + 2 * dt * b + dt ^ 2 * c in
  let m12 := b + dt * c in
  ex (upd_gh e) (fun s => (gh_x s - (p + v * dt)) ^ 2) = (1 - g) ^ 2 * m11 + g ^ 2 * s2 /\
  ex (upd_gh e) (fun s => (gh_x s - (p + v * dt)) * (gh_dx s - v)) =
     (1 - g) * (m12 - h / dt * m11) + g * h / dt * s2 /\
  ex (upd_gh e) (fun s => (gh_dx s - v) ^ 2) = c - 2 * h / dt * m12 + (h / dt) ^ 2 * m11 + (h / dt) ^ 2 * s2 /\
  ex (upd_gh e) (fun s => (gh_x_prediction s - (p + v * dt)) ^ 2) = m11.
Proof.
  intros Hdt Hl (w1 & w2 & w3) dt g h a b c m11 m12. unfold upd_gh. rewrite !ex_emap.
  assert (Hx : forall k1 k2 k3 k4 k5 k6, ex e (fun m => k1 * ge_x p m ^ 2 + k2 * (ge_x p m * ge_dx v m) +
     k3 * ge_dx v m ^ 2 + k4 * ge_n f p v m ^ 2 + k5 * (ge_n f p v m * ge_x p m) + k6 * (ge_n f p v m * ge_dx v m))
     = k1 * a + k2 * b + k3 * c + k4 * s2).
  { intros. rewrite !ex_plus, !ex_scal, w1, w2, w3. fold a b c. ring. }
  assert (P : forall F k1 k2 k3 k4 k5 k6,
    (forall m, gh_dt (fst m) = dt -> gh_g (fst m) = g -> gh_h (fst m) = h ->
      F m = k1 * ge_x p m ^ 2 + k2 * (ge_x p m * ge_dx v m) +
     k3 * ge_dx v m ^ 2 + k4 * ge_n f p v m ^ 2 + k5 * (ge_n f p v m * ge_x p m) + k6 * (ge_n f p v m * ge_dx v m)) ->
    ex e F = k1 * a + k2 * b + k3 * c + k4 * s2).
  { intros F k1 k2 k3 k4 k5 k6 H. rewrite <- (Hx k1 k2 k3 k4 k5 k6). apply ex_ext.
    eapply Forall_impl; [|exact Hl]. intros wa (h1 & h2 & h3). apply H; assumption. }
  assert (Hd : dt <> 0) by exact Hdt.
  repeat split.
  - rewrite (P _ ((1-g)^2) (2*dt*(1-g)^2) (dt^2*(1-g)^2) (g^2) (2*g*(1-g)) (2*dt*g*(1-g))).
    + unfold m11; ring.
    + intros m h1 h2 h3. unfold ge_x, ge_dx, ge_n. cbn [gh_update gh_x opt_or sadd ssub smul RS sc].
      rewrite h1, h2. fold dt. ring.
  - rewrite (P _ (- (1-g)*h/dt) ((1-g)*(1-2*h)) ((1-g)*(1-h)*dt) (g*h/dt)
       (- g*h/dt + h*(1-g)/dt) (g*(1-h)+ (1-g)*h)).
    + unfold m11, m12; field; exact Hd.
    + intros m h1 h2 h3. unfold ge_x, ge_dx, ge_n. cbn [gh_update gh_x gh_dx opt_or sadd ssub smul sdiv RS sc].
      rewrite h1, h2, h3. fold dt. field. exact Hd.
  - rewrite (P _ ((h/dt)^2) (- 2*h/dt*(1-h)) ((1-h)^2) ((h/dt)^2) (- 2*(h/dt)^2) (2*h/dt*(1-h))).
    + unfold m11, m12; field; exact Hd.
    + intros m h1 h2 h3. unfold ge_x, ge_dx, ge_n. cbn [gh_update gh_x gh_dx opt_or sadd ssub smul sdiv RS sc].
      rewrite h1, h3. fold dt. field. exact Hd.
  - rewrite (P _ 1 (2*dt) (dt^2) 0 0 0).
    + unfold m11; ring.
    + intros m h1 h2 h3. unfold ge_x, ge_dx, ge_n. cbn [gh_update gh_x_prediction opt_or sadd ssub smul sdiv RS sc].
      rewrite h1. ring.
Qed.

Theorem C53_gh_VRF : forall (f : gh RS) (e : list (R * (gh RS * R))) (p v s2 : R),
  let dt := gh_dt f in let g := gh_g f in let h := gh_h f in
  dt <> 0 -> g <> 0 -> h <> 0 -> 4 - 2 * g - h <> 0 ->
  like_gh f e -> white_gh f e p v s2 ->
  let e' := upd_gh e in
  let before_x := ex e (fun m => ge_x p m ^ 2) in
  let before_xdx := ex e (fun m => ge_x p m * ge_dx v m) in
  let before_dx := ex e (fun m => ge_dx v m ^ 2) in
  (before_x = ex e' (fun s => (gh_x s - (p + v * dt)) ^ 2) /\
   before_xdx = ex e' (fun s => (gh_x s - (p + v * dt)) * (gh_dx s - v)) /\
   before_dx = ex e' (fun s => (gh_dx s - v) ^ 2)
   <->
   before_x = s2 * fst (gh_VRF f) /\ before_dx = s2 * snd (gh_VRF f) /\
   before_xdx = s2 * (h * (2 * g - h) / (dt * (g * (4 - 2 * g - h))))) /\
  (before_x = s2 * fst (gh_VRF f) -> before_dx = s2 * snd (gh_VRF f) ->
   before_xdx = s2 * (h * (2 * g - h) / (dt * (g * (4 - 2 * g - h)))) ->
   ex e' (fun s => (gh_x_prediction s - (p + v * dt)) ^ 2) = s2 * gh_VRF_prediction f).
Proof.
  intros f e p v s2 dt g h Hdt Hg Hh Hd Hl Hw e' a b c.
  destruct (gh_moments_step f e p v s2 Hdt Hl Hw) as (q1 & q2 & q3 & q4).
  fold dt g h e' a b c in q1, q2, q3, q4. rewrite q1, q2, q3, q4. clear q1 q2 q3 q4.
  unfold gh_VRF, gh_VRF_prediction. rs. fold g h dt.
  clearbody a b c g h dt. clear - Hdt Hg Hh Hd.
  split; [split|].
  - intros (e1 & e2 & e3).
    (* with c12 = b dt, c22 = c dt^2 *)
    set (B := b * dt). set (C := c * dt ^ 2).
    assert (eb : b = B / dt) by (unfold B; field; assumption).
    assert (ec : c = C / dt ^ 2) by (unfold C; field; assumption).
    rewrite eb, ec in *. clearbody B C. clear eb ec b c.
    set (M := a + 2 * B + C).
    assert (f1 : a = (1 - g) ^ 2 * M + g ^ 2 * s2) by (rewrite e1 at 1; unfold M; field; assumption).
    assert (f2 : B = (1 - g) * (B + C - h * M) + g * h * s2).
    { transitivity (dt * (B / dt)); [field; assumption|]. rewrite e2. unfold M. field. assumption. }
    assert (f3 : 2 * (B + C) = h * M + h * s2).
    { assert (X : C = C - 2 * h * (B + C) + h ^ 2 * M + h ^ 2 * s2).
      { transitivity (dt ^ 2 * (C / dt ^ 2)); [field; assumption|]. rewrite e3 at 1. unfold M. field. assumption. }
      apply (Rmult_eq_reg_l h); [|assumption]. lra. }
    assert (fB : B = (1 - g) * ((h * M + h * s2) / 2 - h * M) + g * h * s2).
    { rewrite <- f3. rewrite f2 at 1. field. }
    assert (fC : C = (h * M + h * s2) / 2 - B) by lra.
    assert (fM : M * (g * (4 - 2 * g - h)) = s2 * (2 * g ^ 2 + 2 * h + g * h)).
    { assert (E : M = a + 2 * B + C) by reflexivity. rewrite fC, fB, f1 in E. clearbody M. nra. }
    assert (fM' : M = s2 * (2 * g ^ 2 + 2 * h + g * h) / (g * (4 - 2 * g - h))).
    { apply (Rmult_eq_reg_r (g * (4 - 2 * g - h))); [rewrite fM; field; auto|]. apply Rmult_integral_contrapositive_currified; assumption. }
    clearbody M. clear fM e1 e2 e3 f2 f3. rewrite fC, fB, f1, fM'.
    repeat split; field; auto.
  - intros (-> & -> & ->). repeat split; field; auto.
  - intros -> -> ->. field; auto.
Qed.
Print Assumptions C53_gh_VRF.

(** Six filters on a target at rest at 0: g = 1/2, h = 1/4, dt = 1. *)
Definition vrf_f : gh RS := gh_init (o:=RS) 0 0 1 (1/2) (1/4).
Definition vrf_m (x dx z : R) : gh RS * R := (gh_init (o:=RS) x dx 1 (1/2) (1/4), z).
Example C53_example : exists e s2, s2 <> 0 /\ ensemble e /\ like_gh vrf_f e /\ white_gh vrf_f e 0 0 s2 /\
  ex e (fun m => ge_x 0 m ^ 2) = s2 * fst (gh_VRF vrf_f) /\
  ex e (fun m => ge_dx 0 m ^ 2) = s2 * snd (gh_VRF vrf_f) /\
  ex e (fun m => ge_x 0 m * ge_dx 0 m) = s2 * (1/4 * (2 * (1/2) - 1/4) / (1 * (1/2 * (4 - 2 * (1/2) - 1/4)))).
Proof.
  exists [ (5/22, vrf_m 1 (3/10) 0); (5/22, vrf_m (-1) (-3/10) 0);
           (1/40, vrf_m 0 1 0); (1/40, vrf_m 0 (-1) 0);
           (1/8, vrf_m 0 0 2); (1/8, vrf_m 0 0 (-2));
           (1 - 5/11 - 1/20 - 1/4, vrf_m 0 0 0) ], 1.
  unfold ensemble, like_gh, white_gh, ge_x, ge_dx, ge_n, gh_VRF, vrf_f, vrf_m, gh_init, ex.
  rs. cbn. repeat split; try (repeat constructor; cbn; lra); try lra.
Qed.

(** ** GHKFilter *)
Section GHKMoments.
Variables (f : ghk RS) (e : list (R * (ghk RS * R))) (p v a s2 : R).
Definition like_ghk : Prop :=
  Forall (fun wa => let s := fst (snd wa) in
    ghk_dt s = ghk_dt f /\ ghk_g s = ghk_g f /\ ghk_h s = ghk_h f /\ ghk_k s = ghk_k f) e.
Definition ke (i : nat) (m : ghk RS * R) : R :=
  match i with
  | 0%nat => ghk_x (fst m) - p
  | 1%nat => ghk_dx (fst m) - v
  | _ => ghk_ddx (fst m) - a
  end.
Definition ke_next (i : nat) (s : ghk RS) : R :=
  match i with
  | 0%nat => ghk_x s - (p + v * ghk_dt f + a * ghk_dt f ^ 2 / 2)
  | 1%nat => ghk_dx s - (v + a * ghk_dt f)
  | _ => ghk_ddx s - a
  end.
Definition ke_n (m : ghk RS * R) := snd m - (p + v * ghk_dt f + a * ghk_dt f ^ 2 / 2).
Definition white_ghk : Prop :=
  ex e (fun m => ke_n m ^ 2) = s2 /\ forall i, (i < 3)%nat -> ex e (fun m => ke_n m * ke i m) = 0.
Definition upd_ghk := emap (fun m => ghk_update (o:=RS) (snd m) None None None (fst m)) e.
(** The covariance of the errors is C before and after the update. *)
Definition stationary_ghk (C : nat -> nat -> R) : Prop :=
  (forall i j, (i <= j < 3)%nat -> ex e (fun m => ke i m * ke j m) = C i j) /\
  (forall i j, (i <= j < 3)%nat -> ex upd_ghk (fun s => ke_next i s * ke_next j s) = C i j).
End GHKMoments.

(** The actual stationary covariance: denominators D = (4-2g-h)(gh+gk-2k). *)
Definition ghk_cov (f : ghk RS) (i j : nat) : R :=
  let g := ghk_g f in let h := ghk_h f in let k := ghk_k f in let dt := ghk_dt f in
  let D := (4 - 2 * g - h) * (g * h + g * k - 2 * k) in
  match i, j with
  | 0%nat, 0%nat => (2 * h ^ 2 - 4 * g * k + g * h * k - 3 * g * h ^ 2 + 2 * g ^ 2 * k + 2 * g ^ 2 * h) / D
  | 0%nat, 1%nat => (h ^ 2 * k - h ^ 3 - 2 * g * h * k + 2 * g * h ^ 2) / D / dt
  | 0%nat, 2%nat => 2 * (h * k ^ 2 - 4 * k ^ 2 - h ^ 2 * k + 2 * g * k ^ 2 + 2 * g * h * k) / D / dt ^ 2
  | 1%nat, 1%nat => (8 * k ^ 2 - 4 * h ^ 2 * k + 2 * h ^ 3 - 4 * g * k ^ 2) / D / dt ^ 2
  | 1%nat, 2%nat => 2 * (2 * h ^ 2 * k - 2 * h * k ^ 2) / D / dt ^ 3
  | _, _ => 8 * h * k ^ 2 / D / dt ^ 4
  end.

Lemma ghk_moments_step f e p v a s2 C : ghk_dt f <> 0 -> like_ghk f e -> white_ghk f e p v a s2 ->
  (forall i j, (i <= j < 3)%nat -> ex e (fun m => ke p v a i m * ke p v a j m) = C i j) ->
  let dt := ghk_dt f in let g := ghk_g f in let h := ghk_h f in let k := ghk_k f in
  (* predicted errors: e0 + dt e1 + dt^2/2 e2, e1 + dt e2, e2 *)
  let m00 := C 0%nat 0%nat + 2 * dt * C 0%nat 1%nat + dt ^ 2 * C 0%nat 2%nat + dt ^ 2 * C 1%nat 1%nat + dt ^ 3 * C 1%nat 2%nat + dt ^ 4 / 4 * C 2%nat 2%nat in
  let m01 := C 0%nat 1%nat + dt * C 0%nat 2%nat + dt * C 1%nat 1%nat + 3 / 2 * dt ^ 2 * C 1%nat 2%nat + dt ^ 3 / 2 * C 2%nat 2%nat in
  let m02 := C 0%nat 2%nat + dt * C 1%nat 2%nat + dt ^ 2 / 2 * C 2%nat 2%nat in
  let m11 := C 1%nat 1%nat + 2 * dt * C 1%nat 2%nat + dt ^ 2 * C 2%nat 2%nat in
  let m12 := C 1%nat 2%nat + dt * C 2%nat 2%nat in
  let m22 := C 2%nat 2%nat in
  let H := h / dt in let K := 2 * k / dt ^ 2 in
  let E i j := ex (upd_ghk e) (fun s => ke_next f p v a i s * ke_next f p v a j s) in
  E 0%nat 0%nat = (1 - g) ^ 2 * m00 + g ^ 2 * s2 /\
  E 0%nat 1%nat = (1 - g) * (m01 - H * m00) + g * H * s2 /\
  E 0%nat 2%nat = (1 - g) * (m02 - K * m00) + g * K * s2 /\
  E 1%nat 1%nat = m11 - 2 * H * m01 + H ^ 2 * m00 + H ^ 2 * s2 /\
  E 1%nat 2%nat = m12 - H * m02 - K * m01 + H * K * m00 + H * K * s2 /\
  E 2%nat 2%nat = m22 - 2 * K * m02 + K ^ 2 * m00 + K ^ 2 * s2 /\
  ex (upd_ghk e) (fun s => (ghk_x_prediction s - (p + v * dt + a * dt ^ 2 / 2)) ^ 2) = m00.
Proof.
  intros Hdt Hl (w & wn) HC dt g h k m00 m01 m02 m11 m12 m22 H K E.
  assert (P : forall F k00 k01 k02 k11 k12 k22 kn l0 l1 l2,
    (forall m, ghk_dt (fst m) = dt -> ghk_g (fst m) = g -> ghk_h (fst m) = h -> ghk_k (fst m) = k ->
      F m = k00 * (ke p v a 0 m * ke p v a 0 m) + k01 * (ke p v a 0 m * ke p v a 1 m)
          + k02 * (ke p v a 0 m * ke p v a 2 m) + k11 * (ke p v a 1 m * ke p v a 1 m)
          + k12 * (ke p v a 1 m * ke p v a 2 m) + k22 * (ke p v a 2 m * ke p v a 2 m)
          + kn * ke_n f p v a m ^ 2 + l0 * (ke_n f p v a m * ke p v a 0 m)
          + l1 * (ke_n f p v a m * ke p v a 1 m) + l2 * (ke_n f p v a m * ke p v a 2 m)) ->
    ex e F = k00 * C 0%nat 0%nat + k01 * C 0%nat 1%nat + k02 * C 0%nat 2%nat + k11 * C 1%nat 1%nat
             + k12 * C 1%nat 2%nat + k22 * C 2%nat 2%nat + kn * s2).
  { intros F k00 k01 k02 k11 k12 k22 kn l0 l1 l2 HF.
    transitivity (ex e (fun m => k00 * (ke p v a 0 m * ke p v a 0 m) + k01 * (ke p v a 0 m * ke p v a 1 m)
          + k02 * (ke p v a 0 m * ke p v a 2 m) + k11 * (ke p v a 1 m * ke p v a 1 m)
          + k12 * (ke p v a 1 m * ke p v a 2 m) + k22 * (ke p v a 2 m * ke p v a 2 m)
          + kn * ke_n f p v a m ^ 2 + l0 * (ke_n f p v a m * ke p v a 0 m)
          + l1 * (ke_n f p v a m * ke p v a 1 m) + l2 * (ke_n f p v a m * ke p v a 2 m))).
    - apply ex_ext. eapply Forall_impl; [|exact Hl]. intros wa (h1 & h2 & h3 & h4). apply HF; assumption.
    - rewrite !ex_plus, !ex_scal, w, !HC, !wn by lia. ring. }
  assert (Hd : dt <> 0) by exact Hdt. unfold E, upd_ghk. rewrite !ex_emap.
  Ltac member m h1 h2 h3 h4 dt Hd :=
    intros m h1 h2 h3 h4; unfold ke, ke_n, ke_next;
    cbn [ghk_update ghk_x ghk_dx ghk_ddx ghk_x_prediction opt_or sadd ssub smul sdiv RS sc snat spow];
    rewrite ?half_R, ?h1, ?h2, ?h3, ?h4; rlit; fold dt; field; exact Hd.
  repeat split.
  - rewrite (P _ ((1-g)^2) (2*dt*(1-g)^2) (dt^2*(1-g)^2) (dt^2*(1-g)^2) (dt^3*(1-g)^2) (dt^4/4*(1-g)^2) (g^2)
      (2*g*(1-g)) (2*dt*g*(1-g)) (dt^2*g*(1-g))); [unfold m00; field|]. member m h1 h2 h3 h4 dt Hd.
  - rewrite (P _ (-(1-g)*h/dt) ((1-g)*(1-2*h)) ((1-g)*(1-h)*dt) ((1-g)*(1-h)*dt) ((1-g)*(3/2-h)*dt^2)
      ((1-g)*(1/2-h/4)*dt^3) (g*h/dt) (- g*h/dt + h*(1-g)/dt) (g*(1-h)+(1-g)*h) (g*(1-h/2)*dt + (1-g)*h*dt/2));
      [unfold m00, m01, H; field; exact Hd|]. member m h1 h2 h3 h4 dt Hd.
  - rewrite (P _ (-(1-g)*K) ((1-g)*(- 2*dt*K)) ((1-g)*(1-dt^2*K)) ((1-g)*(-dt^2*K)) ((1-g)*(dt-dt^3*K))
      ((1-g)*(dt^2/2 - dt^4/4*K)) (g*K) (- g*K+(1-g)*K) (- g*K*dt+(1-g)*K*dt) (g*(1-K*dt^2/2)+(1-g)*K*dt^2/2));
      [unfold m00, m02; field|]. unfold K. member m h1 h2 h3 h4 dt Hd.
  - rewrite (P _ (H^2) (-2*H*(1-h)) (-2*H*dt*(1-h/2)) ((1-h)^2) (2*dt*(1-h)*(1-h/2)) (dt^2*(1-h/2)^2) (H^2)
      (-2*H^2) (2*H*(1-h)) (2*H*dt*(1-h/2)));
      [unfold m00, m01, m11, H; field; exact Hd|]. unfold H. member m h1 h2 h3 h4 dt Hd.
  - rewrite (P _ (H*K) (2*H*K*dt - K) (H*K*dt^2 - H - K*dt) (H*K*dt^2 - K*dt) (1 - h - 3/2*K*dt^2 + H*K*dt^3)
      (dt - H*dt^2/2 - K*dt^3/2 + H*K*dt^4/4) (H*K) (-2*H*K) (K - H*K*dt*2) (H + K*dt - H*K*dt^2));
      [unfold m00, m01, m02, m12, H; field; exact Hd|]. unfold H, K. member m h1 h2 h3 h4 dt Hd.
  - rewrite (P _ (K^2) (2*dt*K^2) (K^2*dt^2-2*K) (K^2*dt^2) (K^2*dt^3-2*K*dt) ((1-K*dt^2/2)^2) (K^2)
      (-2*K^2) (-2*K^2*dt) (2*K*(1-K*dt^2/2)));
      [unfold m00, m02, m22; field|]. unfold K. member m h1 h2 h3 h4 dt Hd.
  - rewrite (P _ 1 (2*dt) (dt^2) (dt^2) (dt^3) (dt^4/4) 0 0 0 0); [unfold m00; field|].
    member m h1 h2 h3 h4 dt Hd.
Qed.

(** Every ensemble whose error covariance is s2 * [ghk_cov] keeps it. *)
Theorem C53_ghk_stationary : forall (f : ghk RS) (e : list (R * (ghk RS * R))) (p v a s2 : R),
  let g := ghk_g f in let h := ghk_h f in let k := ghk_k f in
  ghk_dt f <> 0 -> 4 - 2 * g - h <> 0 -> g * h + g * k - 2 * k <> 0 ->
  like_ghk f e -> white_ghk f e p v a s2 ->
  (forall i j, (i <= j < 3)%nat -> ex e (fun m => ke p v a i m * ke p v a j m) = s2 * ghk_cov f i j) ->
  stationary_ghk f e p v a (fun i j => s2 * ghk_cov f i j) /\
  (* the third component of VRF() is the variance of ddx *)
  ex (upd_ghk e) (fun s => ke_next f p v a 2 s * ke_next f p v a 2 s) = s2 * snd (ghk_VRF f).
Proof.
  intros f e p v a s2 g h k Hdt H4 Hk Hl Hw HC.
  destruct (ghk_moments_step f e p v a s2 _ Hdt Hl Hw HC) as (q00 & q01 & q02 & q11 & q12 & q22 & _).
  assert (S22 : ex (upd_ghk e) (fun s => ke_next f p v a 2 s * ke_next f p v a 2 s) = s2 * ghk_cov f 2 2).
  { rewrite q22. unfold ghk_cov. fold g h k. field. auto. }
  split.
  - split; [exact HC|]. intros i j Hij.
    destruct i as [|[|[|i]]]; destruct j as [|[|[|j]]]; try lia.
    + rewrite q00. unfold ghk_cov. fold g h k. field. auto.
    + rewrite q01. unfold ghk_cov. fold g h k. field. auto.
    + rewrite q02. unfold ghk_cov. fold g h k. field. auto.
    + rewrite q11. unfold ghk_cov. fold g h k. field. auto.
    + rewrite q12. unfold ghk_cov. fold g h k. field. auto.
    + exact S22.
  - rewrite S22. unfold ghk_VRF, ghk_cov. rs. fold g h k. field. auto.
Qed.
Print Assumptions C53_ghk_stationary.

(** The bound on the other components: with g = 1/2, h = 1/5, k = 1/30, dt = 1/2 and
    any nonzero noise variance, a stationary ensemble has VRF()[0], VRF()[1] and
    VRF_prediction() different from its variances per unit noise variance. *)
Definition kf0 : ghk RS := ghk_init (o:=RS) 0 0 0 (1/2) (1/2) (1/5) (1/30).

Theorem C53_ghk_VRF_refuted : forall (e : list (R * (ghk RS * R))) (p v a s2 : R),
  s2 <> 0 -> like_ghk kf0 e -> white_ghk kf0 e p v a s2 ->
  (forall i j, (i <= j < 3)%nat -> ex e (fun m => ke p v a i m * ke p v a j m) = s2 * ghk_cov kf0 i j) ->
  ex (upd_ghk e) (fun s => ke_next kf0 p v a 0 s * ke_next kf0 p v a 0 s) <> s2 * fst (fst (ghk_VRF kf0)) /\
  ex (upd_ghk e) (fun s => ke_next kf0 p v a 1 s * ke_next kf0 p v a 1 s) <> s2 * snd (fst (ghk_VRF kf0)) /\
  ex (upd_ghk e) (fun s => (ghk_x_prediction s - (p + v * (1/2) + a * (1/2) ^ 2 / 2)) ^ 2) <> s2 * ghk_VRF_prediction kf0.
Proof.
  intros e p v a s2 Hs Hl Hw HC.
  assert (Hdt : ghk_dt kf0 <> 0) by (cbn; lra).
  destruct (ghk_moments_step kf0 e p v a s2 _ Hdt Hl Hw HC) as (q00 & _ & _ & q11 & _ & _ & qp).
  rewrite q00, q11. change (ghk_dt kf0) with (1/2) in qp. rewrite qp.
  unfold ghk_VRF, ghk_VRF_prediction, ghk_cov, kf0, ghk_init. rs. cbn.
  repeat split; intro H; apply Hs; lra.
Qed.
Print Assumptions C53_ghk_VRF_refuted.

(** Exactly what is wrong: vrf_dx lacks a factor 2/dt^2, and the denominators of vrf_x and
    VRF_prediction have a parenthesis in the wrong place (and vrf_x a missing factor 2). *)
Theorem C53_ghk_VRF_corrected : forall (f : ghk RS) (e : list (R * (ghk RS * R))) (p v a s2 : R),
  let g := ghk_g f in let h := ghk_h f in let k := ghk_k f in let dt := ghk_dt f in
  dt <> 0 -> 4 - 2 * g - h <> 0 -> g * h + g * k - 2 * k <> 0 ->
  like_ghk f e -> white_ghk f e p v a s2 ->
  (forall i j, (i <= j < 3)%nat -> ex e (fun m => ke p v a i m * ke p v a j m) = s2 * ghk_cov f i j) ->
  let var i := ex (upd_ghk e) (fun s => ke_next f p v a i s * ke_next f p v a i s) in
  var 1%nat = s2 * (2 / dt ^ 2 * snd (fst (ghk_VRF f))) /\
  (2 * k - g * (h + k) * (4 - 2 * g - h) <> 0 ->
   var 0%nat = s2 * (fst (fst (ghk_VRF f)) * (2 * k - g * (h + k) * (4 - 2 * g - h))
                     / (2 * (g * (h + k) - 2 * k) * (4 - 2 * g - h)))) /\
  (2 * k - g * (h + k) * (2 * g + h - 4) <> 0 ->
   ex (upd_ghk e) (fun s => (ghk_x_prediction s - (p + v * dt + a * dt ^ 2 / 2)) ^ 2)
   = s2 * (ghk_VRF_prediction f * (2 * k - g * (h + k) * (2 * g + h - 4))
           / ((2 * k - g * (h + k)) * (2 * g + h - 4)))).
Proof.
  intros f e p v a s2 g h k dt Hdt H4 Hk Hl Hw HC var.
  destruct (ghk_moments_step f e p v a s2 _ Hdt Hl Hw HC) as (q00 & _ & _ & q11 & _ & _ & qp).
  destruct (C53_ghk_stationary f e p v a s2 Hdt H4 Hk Hl Hw HC) as ((_ & st) & _).
  assert (v0 : var 0%nat = s2 * ghk_cov f 0 0) by (apply st; lia).
  assert (v1 : var 1%nat = s2 * ghk_cov f 1 1) by (apply st; lia).
  assert (Hk' : g * (h + k) - 2 * k <> 0) by (replace (g * (h + k) - 2 * k) with (g * h + g * k - 2 * k) by ring; exact Hk).
  assert (Hk'' : 2 * k - g * (h + k) <> 0) by lra. assert (H4' : 2 * g + h - 4 <> 0) by lra.
  split; [|split].
  - rewrite v1. unfold ghk_VRF, ghk_cov. rs. fold g h k dt. field. repeat split; try assumption; try (intro Z; first [apply Hd; rewrite <- Z; ring | apply Hk''; rewrite <- Z; ring | apply Hk'; rewrite <- Z; ring | apply H4; rewrite <- Z; ring | apply H4'; rewrite <- Z; ring]).
  - intros Hd. rewrite v0. unfold ghk_VRF, ghk_cov. rs. fold g h k dt. field. repeat split; try assumption; try (intro Z; first [apply Hd; rewrite <- Z; ring | apply Hk''; rewrite <- Z; ring | apply Hk'; rewrite <- Z; ring | apply H4; rewrite <- Z; ring | apply H4'; rewrite <- Z; ring]).
  - intros Hd. fold dt in qp. rewrite qp. unfold ghk_VRF_prediction, ghk_cov. rs. fold g h k dt. field. repeat split; try assumption; try (intro Z; first [apply Hd; rewrite <- Z; ring | apply Hk''; rewrite <- Z; ring | apply Hk'; rewrite <- Z; ring | apply H4; rewrite <- Z; ring | apply H4'; rewrite <- Z; ring]).
Qed.
Print Assumptions C53_ghk_VRF_corrected.

(** An ensemble meeting those hypotheses: the covariance per unit noise is factored
    into rank-one terms. *)
Definition k_m (x dx ddx z : R) : ghk RS * R := (ghk_init (o:=RS) x dx ddx (1/2) (1/2) (1/5) (1/30), z).
Definition k_ens : list (R * (ghk RS * R)) :=
  [ (11/42, k_m 1 (8/11) (8/33) 0); (11/42, k_m (-1) (-8/11) (-8/33) 0);
    (6/55, k_m 0 1 (20/27) 0); (6/55, k_m 0 (-1) (-20/27) 0);
    (32/1215, k_m 0 0 1 0); (32/1215, k_m 0 0 (-1) 0);
    (1/32, k_m 0 0 0 4); (1/32, k_m 0 0 0 (-4));
    (1 - 14869/18711 - 1/16, k_m 0 0 0 0) ].
Example C53_ghk_example : ensemble k_ens /\ like_ghk kf0 k_ens /\ white_ghk kf0 k_ens 0 0 0 1 /\
  (forall i j, (i <= j < 3)%nat -> ex k_ens (fun m => ke 0 0 0 i m * ke 0 0 0 j m) = 1 * ghk_cov kf0 i j).
Proof.
  unfold k_ens, ensemble, like_ghk, white_ghk, ke_n, ghk_cov, kf0, k_m, ghk_init, ex.
  repeat split; try (repeat constructor; cbn; lra); cbn.
  - intros i Hi. destruct i as [|[|[|i]]]; try lia; cbn; lra.
  - intros i j Hij. destruct i as [|[|[|i]]]; destruct j as [|[|[|j]]]; try lia; cbn; lra.
Qed.

(** ** C56.  A target with constant jerk j, measured without error. *)
Theorem C56_bias_error : forall (s : ghk RS) (p v a j : R),
  let dt := ghk_dt s in
  let p' := p + v * dt + a * dt ^ 2 / 2 + j * dt ^ 3 / 6 in
  let v' := v + a * dt + j * dt ^ 2 / 2 in
  let a' := a + j * dt in
  let s' := ghk_update (o:=RS) p' None None None s in
  dt <> 0 -> ghk_k s <> 0 ->
  ghk_x s' - p' = ghk_x s - p -> ghk_dx s' - v' = ghk_dx s - v -> ghk_ddx s' - a' = ghk_ddx s - a ->
  ghk_x_prediction s' - p' = ghk_bias_error j s.
Proof.
  intros s p v a j dt p' v' a' s' Hdt Hk _ _ E.
  assert (Y : ghk_ddx s' = ghk_ddx s + 2 * ghk_k s / dt ^ 2 * (p' - ghk_x_prediction s')).
  { unfold s'. cbn [ghk_update ghk_ddx ghk_x_prediction opt_or]. rs. fold dt. field. exact Hdt. }
  assert (Y' : 2 * ghk_k s / dt ^ 2 * (p' - ghk_x_prediction s') = j * dt) by (unfold a' in E; lra).
  unfold ghk_bias_error. rs. fold dt.
  replace (ghk_x_prediction s' - p') with (- (2 * ghk_k s / dt ^ 2 * (p' - ghk_x_prediction s')) * dt ^ 2 / (2 * ghk_k s))
    by (field; auto).
  rewrite Y'. field. exact Hk.
Qed.
Print Assumptions C56_bias_error.

(** Errors that stay constant exist for every choice of gains. *)
Theorem C56_constant_errors : forall (s : ghk RS) (p v a j : R),
  let dt := ghk_dt s in let g := ghk_g s in let h := ghk_h s in let k := ghk_k s in
  let b := ghk_bias_error j s in
  dt <> 0 -> k <> 0 ->
  ghk_x s = p + (1 - g) * b ->
  ghk_dx s = v + ((b - (1 - g) * b + j * dt ^ 3 / 6) / dt - dt / 2 * (j * dt / 2 + h * b / dt ^ 2)) ->
  ghk_ddx s = a + (j * dt / 2 + h * b / dt ^ 2) ->
  let p' := p + v * dt + a * dt ^ 2 / 2 + j * dt ^ 3 / 6 in
  let v' := v + a * dt + j * dt ^ 2 / 2 in
  let a' := a + j * dt in
  let s' := ghk_update (o:=RS) p' None None None s in
  ghk_x s' - p' = ghk_x s - p /\ ghk_dx s' - v' = ghk_dx s - v /\ ghk_ddx s' - a' = ghk_ddx s - a.
Proof.
  intros s p v a j dt g h k b Hdt Hk X V A p' v' a' s'.
  unfold s', p', v', a'. cbn [ghk_update ghk_x ghk_dx ghk_ddx opt_or].
  rewrite X, V, A. unfold b, ghk_bias_error. rewrite ?half_R. rs. fold dt g h k.
  repeat split; field; auto.
Qed.
Print Assumptions C56_constant_errors.
