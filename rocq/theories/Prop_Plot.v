(** * C74: what the plotting functions draw; C75: rand_student_t. *)
From Coq Require Import Reals Lra Lia List Bool Arith ZArith Permutation Sorted.
From Verif Require Import Ops RealOps ListOps Model_Ellipse Model_Plot Model_Resample Prop_Ellipse.
Import ListNotations.
Local Open Scope R_scope.

(** The points of a matplotlib Ellipse: centre xy, full width and height, angle in degrees counted from the x axis. *)
Definition on_patch (p : patch RO) (x y : R) : Prop :=
  let theta := p_angle p * PI / 180 in
  exists t, x = fst (p_xy p) + p_width p / 2 * cos t * cos theta - p_height p / 2 * sin t * sin theta /\
            y = snd (p_xy p) + p_width p / 2 * cos t * sin theta + p_height p / 2 * sin t * cos theta.

(** The squared Mahalanobis distances asked for: by standard deviations, else by intervals, else by variances. *)
Inductive asked (z_of : R -> R) : option (sv R) -> option (sv R) -> option (sv R) -> list R -> Prop :=
| by_std v s i l : (s = One (hd 0 l) /\ length l = 1%nat \/ s = Many l) -> Forall (fun s => 0 < s) l ->
    asked z_of v (Some s) i (map (fun s => s * s) l)
| by_interval v i l : (i = One (hd 0 l) /\ length l = 1%nat \/ i = Many l) -> Forall (fun p => 0 < z_of p) l ->
    asked z_of v None (Some i) (map (fun p => z_of p * z_of p) l)
| by_variance v l : (v = One (hd 0 l) /\ length l = 1%nat \/ v = Many l) -> Forall (fun v => 0 < v) l ->
    asked z_of (Some v) None None l.

Lemma to_list_of (x : sv R) l : (x = One (hd 0 l) /\ length l = 1%nat \/ x = Many l) -> to_list (o := RO) x = l.
Proof. intros [[-> H]| ->]; [|reflexivity]. destruct l as [|a [|b l]]; try discriminate. reflexivity. Qed.
Lemma asked_std z_of v s i lv : asked z_of v s i lv ->
  exists sds, std_tuple_of (o := RO) z_of v s i = Ok sds /\ Forall (fun s => 0 < s) sds /\ lv = map (fun s => s * s) sds.
Proof.
  intros [v' s' i' l H P|v' i' l H P|v' l H P].
  - exists l. cbn [std_tuple_of]. rewrite (to_list_of _ _ H). auto.
  - exists (map z_of l). cbn [std_tuple_of]. rewrite (to_list_of _ _ H), map_map. repeat split; auto.
    apply Forall_forall. intros x Hx. apply in_map_iff in Hx as (p & <- & Hp). rewrite Forall_forall in P. auto.
  - exists (map sqrt l). cbn [std_tuple_of]. rewrite (to_list_of _ _ H), map_map. rewrite Forall_forall in P. repeat split; auto.
    + apply Forall_forall. intros x Hx. apply in_map_iff in Hx as (p & <- & Hp). apply sqrt_lt_R0, P, Hp.
    + rewrite <- (map_id l) at 1. apply map_ext_in. intros x Hx. symmetry. apply sqrt_sqrt. left. apply P, Hx.
Qed.
Lemma mahal2_scale a b d s x y : s <> 0 -> mahal2 a b d (s * x) (s * y) = s * s * mahal2 a b d x y.
Proof. intros H. unfold mahal2. unfold Rdiv. ring. Qed.

(** ** C74. plot_covariance draws one ellipse for each level asked for, and its points are exactly those at that
    Mahalanobis distance from the mean. *)
Theorem C74_covariance : forall svd atan2 z_of a b d mx my variance std interval levels semi center,
  svd_ok svd a b b d -> atan2_ok atan2 -> 0 < a -> 0 < a * d - b * b -> asked z_of variance std interval levels ->
  exists D, plot_covariance (o := RO) cos sin PI z_of svd atan2 (mx, my) (Some (m22 a b b d)) variance std interval None semi center = Ok D /\
    length (d_patches D) = length levels /\
    forall i p, nth_error (d_patches D) i = Some p -> forall x y, on_patch p x y <-> mahal2 a b d (x - mx) (y - my) = nth i levels 0.
Proof.
  intros svd atan2 z_of a b d mx my va st iv lv semi ce hs ha p1 p2 A.
  destruct (C67_ellipse svd atan2 a b d 1 hs ha p1 p2 Rle_0_1) as (th & w & h & E & _ & G). destruct (G Rlt_0_1) as [_ G']. clear G.
  destruct (asked_std _ _ _ _ _ A) as (sds & S & P & ->).
  unfold plot_covariance. change (s1 RO) with 1. rewrite E. cbn [rbind]. rewrite S. cbn [rbind]. eexists. split; [reflexivity|]. cbn [d_patches].
  split; [rewrite !map_length; reflexivity|]. intros i p Hp x y.
  rewrite nth_error_map in Hp. destruct (nth_error sds i) as [sd|] eqn:N; [|discriminate]. injection Hp as <-.
  assert (Hs : 0 < sd) by (rewrite Forall_forall in P; apply P; eapply nth_error_In, N).
  assert (L : nth i (map (fun s => s * s) sds) 0 = sd * sd).
  { apply nth_error_nth. rewrite nth_error_map. change (option_map (fun s => s * s) (@nth_error (Ops.sc RO) sds i) = Some (sd * sd)). rewrite N. reflexivity. }
  rewrite L. clear L N P S A.
  specialize (G' ((x - mx) / sd) ((y - my) / sd)).
  replace (x - mx) with (sd * ((x - mx) / sd)) by (field; lra). replace (y - my) with (sd * ((y - my) / sd)) by (field; lra).
  rewrite mahal2_scale by lra.
  replace (sd * sd * mahal2 a b d ((x - mx) / sd) ((y - my) / sd) = sd * sd) with (sd * sd * mahal2 a b d ((x - mx) / sd) ((y - my) / sd) = sd * sd * 1) by (rewrite Rmult_1_r; reflexivity).
  assert (Q : sd * sd * mahal2 a b d ((x - mx) / sd) ((y - my) / sd) = sd * sd * 1 <-> mahal2 a b d ((x - mx) / sd) ((y - my) / sd) = 1 * 1).
  { rewrite Rmult_1_r. split; intros H; [|rewrite H; ring]. apply (Rmult_eq_reg_l (sd * sd)); [lra|]. apply Rgt_not_eq, Rmult_lt_0_compat; lra. }
  rewrite Q, <- G'. clear Q G'. unfold on_patch, on_ellipse. cbn [p_angle p_xy p_width p_height fst snd].
  assert (T : degrees (o := RO) PI th * PI / 180 = th).
  { unfold degrees. change (th * INR 180 / PI * PI / 180 = th). replace (INR 180) with 180 by (rewrite INR_IZR_INZ; reflexivity). field. apply PI_neq0. }
  rewrite T. change (smul RO) with Rmult. change (two RO) with (1 + 1).
  split; intros (t & X & Y); exists t; split.
  - rewrite X. field. lra.
  - rewrite Y. field. lra.
  - apply (Rmult_eq_reg_r (/ sd)); [|apply Rinv_neq_0_compat; lra]. unfold Rdiv in *. 
    transitivity ((x - mx) * / sd + mx * / sd); [ring|]. rewrite X. field. lra.
  - apply (Rmult_eq_reg_r (/ sd)); [|apply Rinv_neq_0_compat; lra]. unfold Rdiv in *. 
    transitivity ((y - my) * / sd + my * / sd); [ring|]. rewrite Y. field. lra.
Qed.
Print Assumptions C74_covariance.

(** show_semiaxis does not draw the semi-axes of the ellipses: whatever level is asked for, both segments end at half a
    standard deviation. *)
Theorem C74_semiaxis_refuted : forall svd atan2 z_of a b d mx my variance std interval levels center,
  svd_ok svd a b b d -> atan2_ok atan2 -> 0 < a -> 0 < a * d - b * b -> asked z_of variance std interval levels ->
  exists D x1 y1 x2 y2, plot_covariance (o := RO) cos sin PI z_of svd atan2 (mx, my) (Some (m22 a b b d)) variance std interval None true center = Ok D /\
    d_segments D = [((mx, my), (x1, y1)); ((mx, my), (x2, y2))] /\
    mahal2 a b d (x1 - mx) (y1 - my) = / 4 /\ mahal2 a b d (x2 - mx) (y2 - my) = / 4.
Proof.
  intros svd atan2 z_of a b d mx my va st iv lv ce hs ha p1 p2 A.
  destruct (C67_ellipse svd atan2 a b d 1 hs ha p1 p2 Rle_0_1) as (th & w & h & E & _ & G). destruct (G Rlt_0_1) as [_ G']. clear G.
  destruct (asked_std _ _ _ _ _ A) as (sds & S & _).
  unfold plot_covariance. change (s1 RO) with 1. rewrite E. cbn [rbind]. rewrite S. cbn [rbind].
  do 5 eexists. split; [reflexivity|]. split; [reflexivity|].
  change (sadd RO) with Rplus. change (smul RO) with Rmult. change (sdiv RO) with Rdiv. change (four RO) with (1 + 1 + (1 + 1)). change (two RO) with (1 + 1).
  assert (K : forall x y, on_ellipse th w h x y -> mahal2 a b d (/ 2 * x) (/ 2 * y) = / 4).
  { intros x y H. rewrite mahal2_scale by lra. apply G' in H. rewrite H. field. }
  split.
  - cbn [fst snd]. replace (1 + 1) with 2 by ring. rewrite cos_plus, sin_plus, cos_PI2, sin_PI2.
    replace (mx + h * 2 / (2 + 2) * (cos th * 0 - sin th * 1) - mx) with (/ 2 * (- h * sin th)) by field.
    replace (my + h * 2 / (2 + 2) * (sin th * 0 + cos th * 1) - my) with (/ 2 * (h * cos th)) by field.
    apply K. exists (PI / 2). rewrite cos_PI2, sin_PI2. split; ring.
  - cbn [fst snd]. replace (1 + 1) with 2 by ring.
    replace (mx + w * 2 / (2 + 2) * cos th - mx) with (/ 2 * (w * cos th)) by field.
    replace (my + w * 2 / (2 + 2) * sin th - my) with (/ 2 * (w * sin th)) by field.
    apply K. exists 0. rewrite cos_0, sin_0. split; ring.
Qed.
Print Assumptions C74_semiaxis_refuted.

(** The arguments that are refused, in any arithmetic. *)
Theorem C74_arguments : forall (o : nops) cosf sinf pi z_of svd atan2 mean P e variance std interval semi center,
  let plot := plot_covariance (o := o) cosf sinf pi z_of svd atan2 mean in
  plot (Some P) variance std interval (Some e) semi center = Err ValueError /\
  plot None variance std interval None semi center = Err ValueError /\
  (forall e', covariance_ellipse svd atan2 P (s1 o) = Err e' -> plot (Some P) variance std interval None semi center = Err e') /\
  plot None None None None (Some e) semi center = Err ValueError.
Proof.
  intros o cosf sinf pi z_of svd atan2 mean P e va st iv semi ce plot. unfold plot, plot_covariance. repeat split.
  - intros e' ->. reflexivity.
  - destruct e as [[e0 e1] e2]. reflexivity.
Qed.
Print Assumptions C74_arguments.

(** The example in the documentation of the helper that turns variances into standard deviations is wrong. *)
Theorem C74_documentation_refuted : forall z_of : R -> R,
  std_tuple_of (o := RO) z_of (Some (Many [1; 3; 9])) None None = Ok [1; sqrt 3; 3] /\ sqrt 3 <> 2.
Proof.
  intros z_of. split.
  - cbn [std_tuple_of to_list map]. change (ssqrt RO) with sqrt. rewrite sqrt_1. replace 9 with (3 * 3) by ring. rewrite sqrt_square by lra. reflexivity.
  - intros H. assert (E : sqrt 3 * sqrt 3 = 3) by (apply sqrt_sqrt; lra). rewrite H in E. lra.
Qed.
Print Assumptions C74_documentation_refuted.

(** ** Curves *)
(** math.ceil. *)
Definition ceil_ok (ceil : R -> nat) : Prop := forall x k, INR k - 1 < x <= INR k -> ceil x = k.
(** The points drawn for a function f on a window: a thousand, evenly spaced, the right end left out. *)
Definition sampled (f : R -> R) (lo hi : R) (l : list (R * R)) : Prop :=
  length l = 1000%nat /\ forall i, (i < 1000)%nat -> let x := lo + INR i * ((hi - lo) / 1000) in nth i l (0, 0) = (x, f x).
Lemma sampled_grid ceil f lo hi : ceil_ok ceil -> lo < hi ->
  sampled f lo hi (map (fun x => (x, f x)) (arange (o := RO) ceil lo hi (sdiv RO (ssub RO hi lo) (snat RO 1000)))).
Proof.
  intros hc h. unfold arange. change (snat RO) with INR. change (sdiv RO) with Rdiv. change (ssub RO) with Rminus. change (sadd RO) with Rplus. change (smul RO) with Rmult.
  assert (K : INR 1000 = 1000) by (rewrite INR_IZR_INZ; reflexivity).
  assert (C : ceil ((hi - lo) / ((hi - lo) / INR 1000)) = 1000%nat).
  { apply hc. rewrite K. replace ((hi - lo) / ((hi - lo) / 1000)) with 1000 by (field; lra). lra. }
  rewrite C, K. split; [rewrite !map_length, seq_length; reflexivity|]. intros i Hi x.
  rewrite map_map.
  set (g := fun k : nat => (lo + INR k * ((hi - lo) / 1000), f (lo + INR k * ((hi - lo) / 1000)))).
  rewrite (nth_indep _ (0, 0) (g 0%nat)) by (rewrite map_length, seq_length; exact Hi).
  rewrite (map_nth g), seq_nth by exact Hi. reflexivity.
Qed.
Theorem C74_gaussian_pdf : forall (ceil : R -> nat) (norm : R -> R -> frozen RO) (q1 q2 mean v s : R) (lim : option (R * R)),
  ceil_ok ceil -> 0 <= v ->
  let window (n : frozen RO) : R * R := match lim with None => (n_ppf n q1, n_ppf n q2) | Some l => l end in
  let n := norm mean (sqrt v) in let m := norm mean s in
  (fst (window n) < snd (window n) -> exists l, plot_gaussian_pdf (o := RO) ceil norm q1 q2 mean (@PNum RO v) (@PNone RO) (@PNone RO) lim = Ok l /\ sampled (n_pdf n) (fst (window n)) (snd (window n)) l) /\
  (fst (window m) < snd (window m) -> exists l, plot_gaussian_pdf (o := RO) ceil norm q1 q2 mean (@PNone RO) (@PNum RO s) (@PNone RO) lim = Ok l /\ sampled (n_pdf m) (fst (window m)) (snd (window m)) l) /\
  (fst (window n) < snd (window n) -> exists l, plot_gaussian_cdf (o := RO) ceil norm q1 q2 mean v lim = Ok l /\ sampled (n_cdf n) (fst (window n)) (snd (window n)) l).
Proof.
  intros ceil norm q1 q2 mean v s lim hc hv window n m.
  assert (S : py_sqrt (o := RO) v = Ok (sqrt v)).
  { unfold py_sqrt. change (sltb RO v (s0 RO)) with (Rltb v 0). rewrite (proj2 (Rltb_false v 0)) by lra. reflexivity. }
  split; [|split]; intros W.
  - unfold plot_gaussian_pdf. rewrite S. cbn [rmap rbind]. eexists. split; [reflexivity|]. unfold grid. fold n.
    unfold window in *. destruct lim as [[lo hi]|]; apply sampled_grid; auto.
  - unfold plot_gaussian_pdf. cbn [rmap rbind]. eexists. split; [reflexivity|]. unfold grid. fold m.
    unfold window in *. destruct lim as [[lo hi]|]; apply sampled_grid; auto.
  - unfold plot_gaussian_cdf. rewrite S. cbn [rmap rbind]. eexists. split; [reflexivity|]. unfold grid. fold n.
    unfold window in *. destruct lim as [[lo hi]|]; apply sampled_grid; auto.
Qed.
Print Assumptions C74_gaussian_pdf.

(** plot_gaussian_pdf(std=s) is refused, because variance has a default; and plot_gaussian always raises. *)
Theorem C74_std_refuted : forall (o : nops) ceil norm q1 q2 mean s ax lim,
  plot_gaussian_pdf (o := o) ceil norm q1 q2 mean (@PNum o (s1 o)) (@PNum o s) ax lim = Err ValueError.
Proof. reflexivity. Qed.
Print Assumptions C74_std_refuted.
Theorem C74_plot_gaussian_refuted : forall (o : nops) ceil norm q1 q2 mean variance ax mean_line xlim ylim,
  exists e, plot_gaussian (o := o) ceil norm q1 q2 mean variance ax (@PNum o mean_line) xlim ylim = Err e.
Proof.
  intros o ceil norm q1 q2 mean va ax ml xlim ylim. unfold plot_gaussian, plot_gaussian_pdf.
  destruct va as [|v|], ax as [|a|]; cbn [rbind rmap]; try (eexists; reflexivity).
  - destruct ylim; eexists; reflexivity.
  - unfold py_sqrt. destruct (sltb o v (s0 o)); cbn; eexists; reflexivity.
Qed.
Print Assumptions C74_plot_gaussian_refuted.

(** plot_discrete_cdf: the k-th point is at the total of the first k + 1 probabilities. *)
Fixpoint total (l : list R) : R := match l with [] => 0 | a :: l => a + total l end.
Lemma cumsum_total (ys : list R) k : (k < length ys)%nat -> nth k (cumsum (o := RO) ys) 0 = total (firstn (S k) ys).
Proof.
  destruct ys as [|a ys]; intros H; [inversion H|]. destruct k as [|k]; [cbn; lra|]. cbn [length] in H. apply Nat.succ_lt_mono in H.
  change (nth k (cumsum_from (o := RO) a ys) 0 = a + total (firstn (S k) ys)).
  revert a k H; induction ys as [|b ys IH]; intros a k H; [inversion H|]. destruct k as [|k]; [cbn; change (sadd RO) with Rplus; lra|].
  cbn [length] in H. apply Nat.succ_lt_mono in H. change (nth k (cumsum_from (o := RO) (a + b) ys) 0 = a + (b + total (firstn (S k) ys))).
  rewrite IH by exact H. lra.
Qed.
Lemma cumsum_len (ys : list R) : length (cumsum (o := RO) ys) = length ys.
Proof.
  destruct ys as [|a ys]; [reflexivity|]. cbn [cumsum length]. f_equal. revert a; induction ys as [|b ys IH]; intros a; [reflexivity|]. cbn. f_equal. apply IH.
Qed.
Theorem C74_discrete_cdf : forall ys : list R, Forall (fun p => 0 <= p) ys -> total ys = 1 ->
  exists l, plot_discrete_cdf (o := RO) None ys = Ok l /\ length l = length ys /\
    (forall k, (k < length ys)%nat -> nth k l (0, 0) = (INR k, total (firstn (S k) ys))) /\
    (forall j k, (j <= k < length ys)%nat -> snd (nth j l (0, 0)) <= snd (nth k l (0, 0))) /\ snd (last l (0, 0)) = 1.
Proof.
  intros ys P T. unfold plot_discrete_cdf. cbv zeta. rewrite map_length, seq_length, Nat.eqb_refl. eexists. split; [reflexivity|].
  set (l := combine _ _).
  assert (L : length l = length ys) by (unfold l; rewrite combine_length, map_length, seq_length, cumsum_len; apply Nat.min_id).
  assert (K : forall k, (k < length ys)%nat -> nth k l (0, 0) = (INR k, total (firstn (S k) ys))).
  { intros k Hk. unfold l. rewrite combine_nth by (rewrite map_length, seq_length, cumsum_len; reflexivity). f_equal; [|apply cumsum_total, Hk].
    change (snat RO) with INR. rewrite (nth_indep _ 0 (INR 0)) by (rewrite map_length, seq_length; exact Hk). rewrite map_nth, seq_nth by exact Hk. reflexivity. }
  split; [exact L|]. split; [exact K|]. split.
  - intros j k Hjk. rewrite !K by lia. cbn [snd].
    assert (M : forall ys k, Forall (fun p => 0 <= p) ys -> total (firstn k ys) <= total (firstn (S k) ys)).
    { clear. induction ys as [|a ys IH]; intros k P; [destruct k; cbn; lra|]. inversion P; subst.
      destruct k as [|k]; [cbn; lra|]. specialize (IH k H2). cbn [firstn total] in *. lra. }
    destruct Hjk as [H _]. induction H as [|k H IH]; [lra|]. specialize (M ys (S k) P). lra.
  - destruct ys as [|a ys]; [cbn in T; lra|].
    assert (E : last l (0, 0) = nth (length ys) l (0, 0)).
    { clear K T P. clearbody l. change (length l = S (length ys)) in L. revert L. generalize (length ys) as k. intros k. revert k; induction l as [|x l IH]; intros k L; [discriminate|].
      destruct l as [|x' l]; [cbn in L; injection L as <-; reflexivity|]. destruct k; [discriminate|]. cbn [last nth] in *. apply IH. cbn in *. lia. }
    rewrite E, K by (cbn; lia). cbn [snd]. rewrite <- T. f_equal. change (S (length ys)) with (length (a :: ys)). apply firstn_all.
Qed.
Print Assumptions C74_discrete_cdf.

(** ** Three dimensions *)
Ltac rring := symmetry; ring.
Definition sum3 (f : nat -> R) : R := f 0%nat + f 1%nat + f 2%nat.
Definition kd (i j : nat) : R := if Nat.eqb i j then 1 else 0.
(** lam and the columns of E are eigenvalues and orthonormal eigenvectors of C. *)
Definition eigen (C : M RO 3 3) (lam : list R) (E : M RO 3 3) : Prop :=
  length lam = 3%nat /\
  (forall i c, (i < 3)%nat -> (c < 3)%nat -> sum3 (fun j => mget C i j * mget E j c) = nth c lam 0 * mget E i c) /\
  (forall c e, (c < 3)%nat -> (e < 3)%nat -> sum3 (fun i => mget E i c * mget E i e) = kd c e) /\
  (forall i j, (i < 3)%nat -> (j < 3)%nat -> sum3 (fun c => mget E i c * mget E j c) = kd i j).
(** numpy.linalg.eigh on C, and argsort. *)
Definition eigh_ok (eigh : M RO 3 3 -> res (list R * M RO 3 3)) (C : M RO 3 3) : Prop := exists lam E, eigh C = Ok (lam, E) /\ eigen C lam E.
Definition argsort_ok (argsort : list R -> list nat) : Prop :=
  forall l, Permutation (argsort l) (seq 0 (length l)) /\
    forall j k, (j <= k < length l)%nat -> nth (nth j (argsort l) 0%nat) l 0 <= nth (nth k (argsort l) 0%nat) l 0.

Lemma get33 (f : nat -> nat -> R) i j : (i < 3)%nat -> (j < 3)%nat -> @mget RO 3 3 (@mfun RO 3 3 f) i j = f i j.
Proof. intros Hi Hj. destruct i as [|[|[|i]]]; try lia; destruct j as [|[|[|j]]]; try lia; reflexivity. Qed.

(** _eigsorted: eigenvalues in the order asked for, still paired with orthonormal eigenvectors. *)
Theorem C74_eigsorted : forall eigh argsort C asc, eigh_ok eigh C -> argsort_ok argsort ->
  exists lam E, eigsorted (o := RO) eigh argsort C asc = Ok (lam, E) /\ eigen C lam E /\
    (exists l0 E0, eigh C = Ok (l0, E0) /\ Permutation lam l0) /\
    forall j k, (j <= k < 3)%nat -> if asc : bool then nth j lam 0 <= nth k lam 0 else nth k lam 0 <= nth j lam 0.
Proof.
  intros eigh argsort C asc (l0 & E0 & HE & L0 & HC & HO & HO') HA. destruct (HA l0) as [HP HS]. rewrite L0 in *.
  set (ord := if asc then argsort l0 else rev (argsort l0)).
  assert (PO : Permutation ord (seq 0 3)) by (unfold ord; destruct asc; [exact HP|]; rewrite <- Permutation_rev; exact HP).
  assert (LO : length ord = 3%nat) by (rewrite (Permutation_length PO); reflexivity).
  assert (BO : forall k, (k < 3)%nat -> (nth k ord 0 < 3)%nat).
  { intros k Hk. assert (I : In (nth k ord 0%nat) (seq 0 3)) by (eapply Permutation_in; [exact PO|apply nth_In; lia]). apply in_seq in I. lia. }
  assert (ND : NoDup ord) by (eapply Permutation_NoDup; [symmetry; exact PO|apply seq_NoDup]).
  unfold eigsorted. rewrite HE. cbn [rmap]. do 2 eexists. split; [reflexivity|]. fold ord.
  assert (NL : forall k, (k < 3)%nat -> nth k (map (fun k => nth k l0 0) ord) 0 = nth (nth k ord 0%nat) l0 0).
  { intros k Hk. rewrite (nth_indep _ 0 ((fun k => nth k l0 0) 0%nat)) by (rewrite map_length; lia). apply (map_nth (fun k => nth k l0 0)). }
  change (s0 RO) with 0. split; [|split].
  - split; [rewrite map_length; exact LO|]. split; [|split].
    + intros i c Hi Hc. unfold sum3. rewrite NL, !get33 by (auto; lia). apply (HC i (nth c ord 0%nat)); auto.
    + intros c e Hc He. unfold sum3. rewrite !get33 by (auto; lia).
      transitivity (kd (nth c ord 0%nat) (nth e ord 0%nat)); [apply HO; auto|]. unfold kd.
      destruct (Nat.eqb_spec c e) as [->|NE]; [rewrite Nat.eqb_refl; reflexivity|].
      destruct (Nat.eqb_spec (nth c ord 0%nat) (nth e ord 0%nat)) as [Q|]; [|reflexivity].
      exfalso. apply NE. apply (proj1 (NoDup_nth ord 0%nat) ND); auto; lia.
    + intros i j Hi Hj. rewrite <- (HO' i j Hi Hj). unfold sum3. rewrite !get33 by (auto; lia).
      assert (S : forall f : nat -> R, sum3 f = fold_right Rplus 0 (map f (seq 0 3))) by (intros f; unfold sum3; cbn; ring).
      set (f := fun c => mget E0 i c * mget E0 j c).
      change (sum3 (fun c => f (nth c ord 0%nat)) = sum3 f). rewrite !S.
      assert (PM : Permutation (map f ord) (map f (seq 0 3))) by (apply Permutation_map, PO).
      transitivity (fold_right Rplus 0 (map f ord)).
      * f_equal. destruct ord as [|a [|b [|c [|? ?]]]]; try discriminate LO. reflexivity.
      * clear - PM. induction PM; cbn; try lra.
  - exists l0, E0. split; [try exact HE; reflexivity|].
    transitivity (map (fun k => nth k l0 0) (seq 0 3)); [apply Permutation_map, PO|].
    destruct l0 as [|a [|b [|c [|? ?]]]]; try discriminate L0. reflexivity.
  - intros j k Hjk. rewrite !NL by lia. unfold ord. destruct asc; [apply HS; lia|].
    assert (LA : length (argsort l0) = 3%nat) by (rewrite (Permutation_length HP); reflexivity).
    rewrite !rev_nth by lia. apply HS. lia.
Qed.
Print Assumptions C74_eigsorted.

(** The decomposition that follows. *)
Definition sym_form (C : M RO 3 3) (x : nat -> R) : R := sum3 (fun i => x i * sum3 (fun j => mget C i j * x j)).
Definition times (C : M RO 3 3) (q : nat -> R) (i : nat) : R := sum3 (fun j => mget C i j * q j).
Definition dot3 (x y : nat -> R) : R := sum3 (fun i => x i * y i).
Lemma sum3_ext f g : (forall i, (i < 3)%nat -> f i = g i) -> sum3 f = sum3 g.
Proof. intros H. unfold sum3. rewrite !H by lia. reflexivity. Qed.
Section Eig.
Variables (C E : M RO 3 3) (lam : list R).
Hypothesis HE : eigen C lam E.
Let e (c i : nat) : R := mget E i c.
Let l (c : nat) : R := nth c lam 0.
Lemma eig_mult c i : (c < 3)%nat -> (i < 3)%nat -> times C (e c) i = l c * e c i.
Proof. intros Hc Hi. apply HE; auto. Qed.
Lemma eig_orth c c' : (c < 3)%nat -> (c' < 3)%nat -> dot3 (e c) (e c') = kd c c'.
Proof. intros Hc Hc'. apply HE; auto. Qed.
Lemma eig_entry i j : (i < 3)%nat -> (j < 3)%nat -> @eq R (mget C i j) (sum3 (fun c => l c * e c i * e c j)).
Proof.
  intros Hi Hj. destruct HE as (_ & HC & _ & HO).
  transitivity (sum3 (fun k => mget C i k * sum3 (fun c => mget E k c * mget E j c))).
  - transitivity (sum3 (fun k => mget C i k * kd k j)).
    + unfold sum3, kd. destruct j as [|[|[|j]]]; try lia; cbn [Nat.eqb]; rring.
    + apply sum3_ext. intros k Hk. rewrite HO by auto. reflexivity.
  - transitivity (sum3 (fun c => sum3 (fun k => mget C i k * mget E k c) * mget E j c)); [unfold sum3; rring|].
    apply sum3_ext. intros c Hc. rewrite HC by auto. unfold e, l. ring.
Qed.
Lemma eig_times q i : (i < 3)%nat -> times C q i = sum3 (fun c => l c * dot3 (e c) q * e c i).
Proof.
  intros Hi. unfold times. transitivity (sum3 (fun j => sum3 (fun c => l c * e c i * e c j) * q j)).
  - apply sum3_ext. intros j Hj. rewrite eig_entry by auto. reflexivity.
  - unfold dot3, sum3. ring.
Qed.
Lemma eig_form x : sym_form C x = sum3 (fun c => l c * (dot3 (e c) x * dot3 (e c) x)).
Proof.
  unfold sym_form. transitivity (sum3 (fun i => x i * sum3 (fun c => l c * dot3 (e c) x * e c i))).
  - apply sum3_ext. intros i Hi. f_equal. apply (eig_times x i Hi).
  - unfold dot3, sum3. ring.
Qed.
Lemma eig_val c : (c < 3)%nat -> sym_form C (e c) = l c.
Proof.
  intros Hc. unfold sym_form. transitivity (sum3 (fun i => e c i * (l c * e c i))).
  - apply sum3_ext. intros i Hi. f_equal. apply eig_mult; auto.
  - transitivity (l c * dot3 (e c) (e c)); [unfold dot3, sum3; ring|]. rewrite eig_orth by auto. unfold kd. rewrite Nat.eqb_refl. ring.
Qed.
(** Coordinates along the eigenvectors. *)
Lemma eig_coord (w : nat -> R) c : (c < 3)%nat -> dot3 (e c) (fun i => sum3 (fun k => w k * e k i)) = w c.
Proof.
  intros Hc. transitivity (sum3 (fun k => w k * dot3 (e c) (e k))); [unfold dot3, sum3; ring|].
  transitivity (sum3 (fun k => w k * kd c k)); [apply sum3_ext; intros k Hk; rewrite eig_orth by auto; reflexivity|].
  unfold sum3, kd. destruct c as [|[|[|c]]]; try lia; cbn [Nat.eqb]; ring.
Qed.
Lemma eig_norm (w : nat -> R) : let d := fun i => sum3 (fun k => w k * e k i) in dot3 d d = sum3 (fun k => w k * w k).
Proof.
  cbv zeta. set (d := fun i => sum3 (fun k => w k * e k i)).
  transitivity (sum3 (fun k => w k * dot3 (e k) d)); [unfold dot3, sum3, d, sum3; ring|].
  apply sum3_ext. intros k Hk. unfold d. rewrite eig_coord by auto. reflexivity.
Qed.
End Eig.

(** plot_3d_covariance, on a covariance for which eigh meets its contract. *)
Section Surface.
Variables (eigh : M RO 3 3 -> res (list R * M RO 3 3)) (argsort : list R -> list nat).
Definition surface := plot_3d_covariance (o := RO) cos sin PI eigh argsort.

Lemma radii_max a b c : fold_left (fun u w => if sltb RO u w then w else u) [b; c] a = Rmax (Rmax a b) c.
Proof.
  cbn [fold_left]. assert (S : forall u w : R, (if sltb RO u w then w else u) = Rmax u w).
  { intros u w. destruct (sltb RO u w) eqn:Q; [apply Rltb_true in Q|apply Rltb_false in Q]; unfold Rmax; destruct Rle_dec; lra. }
  rewrite !S. reflexivity.
Qed.

Lemma surface_inv mean C std N : eigh_ok eigh C -> argsort_ok argsort -> (2 <= N)%nat -> exists lam E,
  eigen C lam E /\ nth 0 lam 0 <= nth 1 lam 0 /\ nth 1 lam 0 <= nth 2 lam 0 /\
  ((nth 0 lam 0 < 0 /\ surface mean C std N = Err ValueError) \/
   (0 <= nth 0 lam 0 /\ exists pt r, surface mean C std N = Ok (pt, r) /\
      r = Rmax (Rmax (std * sqrt (nth 0 lam 0)) (std * sqrt (nth 1 lam 0))) (std * sqrt (nth 2 lam 0)) /\
      exists u v : nat -> R, u 0%nat = 0 /\ u (N - 1)%nat = 2 * PI /\ v 0%nat = 0 /\ v (N - 1)%nat = PI /\
      let w := fun i j c => match c with 0%nat => cos (u i) * sin (v j) | 1%nat => sin (u i) * sin (v j) | _ => cos (v j) end in
      forall k i j, (k < 3)%nat -> (i < N)%nat -> (j < N)%nat ->
        pt k i j = mean k + sum3 (fun c => std * sqrt (nth c lam 0) * w i j c * mget E k c))).
Proof.
  intros HE HA HN. destruct (@C74_eigsorted eigh argsort C true HE HA) as (lam & E & Q & HG & _ & HS). exists lam, E.
  split; [exact HG|]. split; [apply (HS 0%nat 1%nat); lia|]. split; [apply (HS 1%nat 2%nat); lia|].
  unfold surface, plot_3d_covariance. rewrite Q. cbn [rbind].
  destruct HG as (L & _). destruct lam as [|a [|b [|c [|? ?]]]]; try discriminate L. cbn [nth].
  destruct (sltb RO a (s0 RO)) eqn:T; [apply Rltb_true in T; left; split; [exact T|reflexivity]|].
  apply Rltb_false in T. right. split; [exact T|]. do 2 eexists. split; [reflexivity|]. split; [apply radii_max|].
  exists (linspace (o := RO) (2 * PI) N), (linspace (o := RO) PI N).
  assert (I : INR (N - 1) <> 0) by (apply not_0_INR; lia).
  assert (Z : forall h, linspace (o := RO) h N 0 = 0) by (intros h; unfold linspace; cbn; ring).
  assert (O : forall h, linspace (o := RO) h N (N - 1) = h).
  { intros h. unfold linspace. change (INR (N - 1) * (h / INR (N - 1)) = h). field. exact I. }
  split; [apply Z|]. split; [apply O|]. split; [apply Z|]. split; [apply O|]. cbv zeta.
  intros k i j Hk Hi Hj.
  assert (D : ((k * N + j) / N = k)%nat) by (rewrite Nat.div_add_l, Nat.div_small by lia; lia).
  assert (Mo : ((k * N + j) mod N = j)%nat) by (rewrite Nat.add_comm, Nat.mod_add, Nat.mod_small by lia; reflexivity).
  assert (TW : @two RO = 2) by (unfold two; cbn; ring).
  match goal with |- @eq _ ?a ?b => change (@eq R a b) end. cbv beta. rewrite D, Mo. unfold sum3. cbn [nth map].
  change (smul RO) with Rmult. change (sadd RO) with Rplus. change (ssqrt RO) with sqrt. change (s1 RO) with 1. rewrite TW. ring.
Qed.

(** The call is refused exactly when the matrix is indefinite. *)
Theorem C74_indefinite : forall mean C std N, eigh_ok eigh C -> argsort_ok argsort -> (2 <= N)%nat ->
  ((exists x, sym_form C x < 0) -> surface mean C std N = Err ValueError) /\
  ((forall x, 0 <= sym_form C x) -> exists pr, surface mean C std N = Ok pr).
Proof.
  intros mean C std N HE HA HN. destruct (@surface_inv mean C std N HE HA HN) as (lam & E & HG & S1 & S2 & [[T ->]|[T (pt & r & -> & _)]]).
  - split; [reflexivity|]. intros P. exfalso. specialize (P (fun i => mget E i 0%nat)).
    rewrite (eig_val _ _ _ HG) in P by lia. lra.
  - split; [|eexists; reflexivity]. intros [x Hx]. exfalso. rewrite (eig_form _ _ _ HG) in Hx. unfold sum3 in Hx.
    assert (A : forall c, 0 <= nth c lam 0 -> 0 <= nth c lam 0 * (dot3 (fun i => mget E i c) x * dot3 (fun i => mget E i c) x))
      by (intros c Hc; apply Rmult_le_pos; [exact Hc|apply Rle_0_sqr]).
    pose proof (A 0%nat T). pose proof (A 1%nat ltac:(lra)). pose proof (A 2%nat ltac:(lra)). lra.
Qed.
Print Assumptions C74_indefinite.

(** Every vertex lies on the ellipsoid { p | (p - mean)^T C^-1 (p - mean) = std^2 }: C is
    invertible there, and whatever q solves C q = p - mean gives (p - mean) . q = std^2. *)
Theorem C74_surface : forall mean C std N, eigh_ok eigh C -> argsort_ok argsort -> (2 <= N)%nat ->
  (forall x, (exists i, (i < 3)%nat /\ x i <> 0) -> 0 < sym_form C x) ->
  exists pt r, surface mean C std N = Ok (pt, r) /\
    forall i j, (i < N)%nat -> (j < N)%nat -> let d := fun k => pt k i j - mean k in
      (exists q, forall k, (k < 3)%nat -> times C q k = d k) /\
      (forall q, (forall k, (k < 3)%nat -> times C q k = d k) -> dot3 d q = std * std).
Proof.
  intros mean C std N HE HA HN PD. destruct (@surface_inv mean C std N HE HA HN) as (lam & E & HG & S1 & S2 & X).
  assert (P0 : 0 < nth 0 lam 0).
  { rewrite <- (eig_val _ _ _ HG) by lia. apply PD.
    pose proof (eig_orth _ _ _ HG 0%nat 0%nat ltac:(lia) ltac:(lia)) as O. unfold dot3, sum3, kd in O. cbn [Nat.eqb] in O.
    destruct (Req_dec (mget E 0 0) 0) as [e0|]; [|exists 0%nat; split; [lia|assumption]].
    destruct (Req_dec (mget E 1 0) 0) as [e1|]; [|exists 1%nat; split; [lia|assumption]].
    destruct (Req_dec (mget E 2 0) 0) as [e2|]; [|exists 2%nat; split; [lia|assumption]].
    exfalso. rewrite e0, e1, e2 in O. lra. }
  destruct X as [[T _]|[T (pt & r & Q & _ & u & v & _ & _ & _ & _ & F)]]; [exfalso; lra|].
  cbv zeta in F. exists pt, r. split; [exact Q|]. intros i j Hi Hj. cbv zeta.
  set (w := fun c => match c with 0%nat => cos (u i) * sin (v j) | 1%nat => sin (u i) * sin (v j) | _ => cos (v j) end) in *.
  assert (F' : forall k, (k < 3)%nat -> pt k i j - mean k = sum3 (fun c => std * sqrt (nth c lam 0) * w c * mget E k c)).
  { intros k Hk. rewrite (F k i j Hk Hi Hj). unfold w. ring. }
  assert (PL : forall c, (c < 3)%nat -> 0 < nth c lam 0) by (intros [|[|[|c]]] Hc; try lia; lra).
  assert (W : sum3 (fun c => w c * w c) = 1).
  { unfold sum3, w. pose proof (sin2_cos2 (u i)) as A. pose proof (sin2_cos2 (v j)) as B. unfold Rsqr in A, B.
    transitivity ((sin (u i) * sin (u i) + cos (u i) * cos (u i)) * (sin (v j) * sin (v j)) + cos (v j) * cos (v j)); [ring|]. rewrite A. lra. }
  clearbody w. split.
  - exists (fun k => sum3 (fun c => std * sqrt (nth c lam 0) * w c / nth c lam 0 * mget E k c)). intros k Hk. rewrite F' by exact Hk.
    rewrite (eig_times _ _ _ HG) by exact Hk. apply sum3_ext. intros c Hc.
    transitivity (nth c lam 0 * (std * sqrt (nth c lam 0) * w c / nth c lam 0) * mget E k c).
    + f_equal. f_equal. apply (eig_coord _ _ _ HG (fun c => std * sqrt (nth c lam 0) * w c / nth c lam 0) c Hc).
    + field. specialize (PL c Hc). lra.
  - intros q Hq.
    assert (K : forall c, (c < 3)%nat -> nth c lam 0 * dot3 (fun k => mget E k c) q = std * sqrt (nth c lam 0) * w c).
    { intros c Hc.
      pose proof (eig_coord _ _ _ HG (fun c => nth c lam 0 * dot3 (fun k => mget E k c) q) c Hc) as A.
      pose proof (eig_coord _ _ _ HG (fun c => std * sqrt (nth c lam 0) * w c) c Hc) as B. cbv beta in A, B.
      rewrite <- A, <- B. unfold dot3. apply sum3_ext. intros k Hk. f_equal.
      rewrite <- F', <- Hq by exact Hk. symmetry. apply (eig_times _ _ _ HG q k Hk). }
    transitivity (sum3 (fun c => std * sqrt (nth c lam 0) * w c * dot3 (fun k => mget E k c) q)).
    + transitivity (sum3 (fun k => sum3 (fun c => std * sqrt (nth c lam 0) * w c * mget E k c) * q k)).
      * unfold dot3. apply sum3_ext. intros k Hk. rewrite F' by exact Hk. reflexivity.
      * unfold dot3, sum3. ring.
    + transitivity (std * std * sum3 (fun c => w c * w c)); [|rewrite W; ring].
      transitivity (sum3 (fun c => std * std * (w c * w c))); [|unfold sum3; ring].
      apply sum3_ext. intros c Hc. specialize (K c Hc). specialize (PL c Hc).
      assert (SQ : sqrt (nth c lam 0) * sqrt (nth c lam 0) = nth c lam 0) by (apply sqrt_sqrt; lra).
      assert (D : dot3 (fun k => mget E k c) q = std * sqrt (nth c lam 0) * w c / nth c lam 0).
      { apply (Rmult_eq_reg_l (nth c lam 0)); [|lra]. rewrite K. field. lra. }
      rewrite D. transitivity (std * std * (w c * w c) * (sqrt (nth c lam 0) * sqrt (nth c lam 0)) / nth c lam 0); [field; lra|].
      rewrite SQ. field. lra.
Qed.

(** Nothing is cut off by the limits set on the axes, and the surface is closed. *)
Theorem C74_limits : forall mean C std N, eigh_ok eigh C -> argsort_ok argsort -> (2 <= N)%nat -> 0 <= std ->
  forall pt r, surface mean C std N = Ok (pt, r) ->
    (forall k i j, (k < 3)%nat -> (i < N)%nat -> (j < N)%nat -> mean k - r <= pt k i j <= mean k + r) /\
    (forall k j, (k < 3)%nat -> (j < N)%nat -> pt k 0%nat j = pt k (N - 1)%nat j) /\
    (forall k i i', (k < 3)%nat -> (i < N)%nat -> (i' < N)%nat ->
       pt k i 0%nat = pt k i' 0%nat /\ pt k i (N - 1)%nat = pt k i' (N - 1)%nat).
Proof.
  intros mean C std N HE HA HN HS pt r HQ. destruct (@surface_inv mean C std N HE HA HN) as (lam & E & HG & S1 & S2 & X).
  destruct X as [[_ X]|[T (pt' & r' & Q & HR & u & v & U0 & U1 & V0 & V1 & F)]]; [rewrite X in HQ; discriminate|].
  rewrite Q in HQ. injection HQ as <- <-. cbv zeta in F. split; [|split].
  - intros k i j Hk Hi Hj. rewrite (F k i j Hk Hi Hj).
    set (w := fun c => match c with 0%nat => cos (u i) * sin (v j) | 1%nat => sin (u i) * sin (v j) | _ => cos (v j) end).
    assert (W : sum3 (fun c => w c * w c) = 1).
    { unfold sum3, w. pose proof (sin2_cos2 (u i)) as A. pose proof (sin2_cos2 (v j)) as B. unfold Rsqr in A, B.
      transitivity ((sin (u i) * sin (u i) + cos (u i) * cos (u i)) * (sin (v j) * sin (v j)) + cos (v j) * cos (v j)); [ring|]. rewrite A. lra. }
    change (mean k - r' <= mean k + sum3 (fun c => std * sqrt (nth c lam 0) * w c * mget E k c) <= mean k + r'). clearbody w.
    assert (R0 : forall c, (c < 3)%nat -> 0 <= std * sqrt (nth c lam 0) <= r').
    { intros c Hc. split; [apply Rmult_le_pos; [exact HS|apply sqrt_pos]|]. rewrite HR.
      pose proof (Rmax_l (Rmax (std * sqrt (nth 0 lam 0)) (std * sqrt (nth 1 lam 0))) (std * sqrt (nth 2 lam 0))).
      pose proof (Rmax_r (Rmax (std * sqrt (nth 0 lam 0)) (std * sqrt (nth 1 lam 0))) (std * sqrt (nth 2 lam 0))).
      pose proof (Rmax_l (std * sqrt (nth 0 lam 0)) (std * sqrt (nth 1 lam 0))).
      pose proof (Rmax_r (std * sqrt (nth 0 lam 0)) (std * sqrt (nth 1 lam 0))).
      destruct c as [|[|[|c]]]; try lia; lra. }
    set (d := fun k => sum3 (fun c => std * sqrt (nth c lam 0) * w c * mget E k c)). change (mean k - r' <= mean k + d k <= mean k + r').
    assert (ND : dot3 d d <= r' * r').
    { unfold d. pose proof (eig_norm _ _ _ HG (fun c => std * sqrt (nth c lam 0) * w c)) as A. cbv zeta in A. rewrite A.
      apply Rle_trans with (sum3 (fun c => r' * r' * (w c * w c))); [|replace (sum3 (fun c => r' * r' * (w c * w c))) with (r' * r' * sum3 (fun c => w c * w c)) by (unfold sum3; ring); rewrite W; lra].
      assert (B : forall c, (c < 3)%nat -> std * sqrt (nth c lam 0) * w c * (std * sqrt (nth c lam 0) * w c) <= r' * r' * (w c * w c)).
      { intros c Hc. destruct (R0 c Hc) as [B1 B2]. set (y := std * sqrt (nth c lam 0)) in *.
        replace (y * w c * (y * w c)) with (y * y * (w c * w c)) by ring. apply Rmult_le_compat_r; [apply Rle_0_sqr|]. apply Rmult_le_compat; lra. }
      unfold sum3. pose proof (B 0%nat ltac:(lia)). pose proof (B 1%nat ltac:(lia)). pose proof (B 2%nat ltac:(lia)). lra. }
    assert (DK : d k * d k <= r' * r').
    { unfold dot3, sum3 in ND. pose proof (Rle_0_sqr (d 0%nat)). pose proof (Rle_0_sqr (d 1%nat)). pose proof (Rle_0_sqr (d 2%nat)). unfold Rsqr in *.
      destruct k as [|[|[|k]]]; try lia; lra. }
    assert (R1 : 0 <= r') by (pose proof (R0 0%nat ltac:(lia)); lra).
    pose proof (Rsqr_neg_pos_le_0 (d k) r' DK R1). pose proof (Rsqr_incr_0_var (d k) r' DK R1). lra.
  - intros k j Hk Hj. rewrite !F by lia. rewrite U0, U1, cos_0, sin_0, cos_2PI, sin_2PI. reflexivity.
  - intros k i i' Hk Hi Hi'. rewrite !F by lia. rewrite V0, V1, sin_0, sin_PI. unfold sum3. split; match goal with |- @eq _ ?a ?b => change (@eq R a b) end; ring.
Qed.
End Surface.
Print Assumptions C74_surface.
Print Assumptions C74_limits.

(** The shape checks: exactly a mean of three and a 3 x 3 covariance are let through; a covariance with fewer
    than two dimensions that starts with 3, or has none, fails with an IndexError instead of the message. *)
Theorem C74_shapes : forall mean cov, (length mean <= 2)%nat -> (length cov <= 2)%nat ->
  (plot3d_check mean cov = None <-> (mean = [3%nat] \/ mean = [1%nat; 3%nat] \/ mean = [3%nat; 1%nat]) /\ cov = [3%nat; 3%nat]) /\
  (plot3d_check mean cov = None \/ plot3d_check mean cov = Some ValueError \/
   (plot3d_check mean cov = Some IndexError /\ (cov = [] \/ cov = [3%nat]))).
Proof.
  assert (X : forall m : list nat, (length m <= 2)%nat -> m = [3%nat] \/ m = [1%nat; 3%nat] \/ m = [3%nat; 1%nat] \/
     (m <> [3%nat] /\ m <> [1%nat; 3%nat] /\ m <> [3%nat; 1%nat] /\ forall cov, plot3d_check m cov = Some ValueError)).
  { intros m Hm. destruct m as [|a [|b [|? ?]]]; cbn in Hm; try lia.
    - right; right; right. repeat split; try discriminate.
    - destruct a as [|[|[|[|a]]]]; [| | |left; reflexivity|]; right; right; right; repeat split; try discriminate.
    - destruct a as [|[|[|[|a]]]]; destruct b as [|[|[|[|b]]]];
        try (right; left; reflexivity); try (right; right; left; reflexivity); right; right; right; repeat split; try discriminate. }
  assert (Y : forall cov : list nat, (length cov <= 2)%nat -> cov = [3%nat; 3%nat] \/ cov = [] \/ cov = [3%nat] \/
     (cov <> [3%nat; 3%nat] /\ plot3d_check [3%nat] cov = Some ValueError)).
  { intros m Hm. destruct m as [|a [|b [|? ?]]]; cbn in Hm; try lia; [auto| |].
    - destruct a as [|[|[|[|a]]]]; auto; right; right; right; split; try discriminate; reflexivity.
    - destruct a as [|[|[|[|a]]]]; destruct b as [|[|[|[|b]]]]; auto; right; right; right; split; try discriminate; reflexivity. }
  intros m cov Hm Hc.
  assert (Z : plot3d_check [1%nat; 3%nat] cov = plot3d_check [3%nat] cov /\ plot3d_check [3%nat; 1%nat] cov = plot3d_check [3%nat] cov) by (split; reflexivity).
  destruct Z as [Z1 Z2].
  destruct (X m Hm) as [->|[->|[->|(N1 & N2 & N3 & V)]]]; [| | |rewrite V; split; [split; [discriminate|intros [[?|[?|?]] _]; contradiction]|auto]];
  rewrite ?Z1, ?Z2; destruct (Y cov Hc) as [->|[->|[->|[NC V]]]]; try rewrite V; cbn;
    (split; [split; [intros W; try discriminate W; auto 10|intros [_ W]; try discriminate W; try contradiction; reflexivity]|auto 10]).
Qed.
Print Assumptions C74_shapes.

(** ** C75: rand_student_t *)
(** Student's t with df degrees of freedom is z / sqrt (chi / df), with z a standard normal draw and chi a chi-squared draw
    of df degrees of freedom, that is, twice a draw of the gamma distribution of shape df/2 and scale 1.
    The function takes four times the gamma draw. *)
Definition student (z chi df : R) : R := z / sqrt (chi / df).
Theorem C75_student : forall (z : R) (gamma : R -> R) df mu std, 0 < df -> 0 < gamma (df / 2) ->
  rand_student_t (o := RO) z gamma df mu std = mu + (std / sqrt 2) * student z (2 * gamma (df / 2)) df.
Proof.
  intros z gamma df mu std Hd Hg. unfold rand_student_t, student.
  assert (TW : @two RO = 2) by (unfold two; cbn; ring). rewrite !TW.
  match goal with |- @eq _ ?a ?b => change (@eq R a b) end.
  change (smul RO) with Rmult. change (sadd RO) with Rplus. change (ssqrt RO) with sqrt. change (s1 RO) with 1. change (s0 RO) with 0. change (sdiv RO) with Rdiv.
  replace (1 / 2 * df) with (df / 2) by field. set (g := gamma (df / 2)) in *.
  assert (P : 0 < 2 * g / df) by (apply Rdiv_lt_0_compat; lra).
  replace (2 * (2 * g) / df) with (2 * (2 * g / df)) by (field; lra).
  rewrite sqrt_mult by lra. pose proof (sqrt_lt_R0 2 ltac:(lra)). pose proof (sqrt_lt_R0 _ P). field. split; lra.
Qed.
Print Assumptions C75_student.

(** So the spread is not the one asked for: the draw is nearer to mu than std times the variate, whatever is drawn. *)
Theorem C75_scale_refuted : forall (z : R) (gamma : R -> R) df mu std, 0 < df -> 0 < gamma (df / 2) -> 0 < std -> z <> 0 ->
  let t := student z (2 * gamma (df / 2)) df in
  Rabs (rand_student_t (o := RO) z gamma df mu std - mu) = Rabs (std * t) / sqrt 2 /\
  Rabs (rand_student_t (o := RO) z gamma df mu std - mu) < Rabs (std * t) /\
  rand_student_t (o := RO) z gamma df mu std <> mu + std * t.
Proof.
  intros z gamma df mu std Hd Hg Hs Hz t. rewrite (C75_student z gamma df mu std Hd Hg). fold t.
  pose proof (sqrt_lt_R0 2 ltac:(lra)) as S0. pose proof (sqrt_lt_1 1 2 ltac:(lra) ltac:(lra) ltac:(lra)) as S1. rewrite sqrt_1 in S1.
  assert (T : std * t <> 0).
  { unfold t, student. assert (P : 0 < 2 * gamma (df / 2) / df) by (apply Rdiv_lt_0_compat; lra). pose proof (sqrt_lt_R0 _ P).
    apply Rmult_integral_contrapositive. split; [lra|]. unfold Rdiv at 1. apply Rmult_integral_contrapositive. split; [exact Hz|]. apply Rinv_neq_0_compat. lra. }
  assert (E : Rabs (mu + std / sqrt 2 * t - mu) = Rabs (std * t) / sqrt 2).
  { replace (mu + std / sqrt 2 * t - mu) with (std * t / sqrt 2) by (field; lra). unfold Rdiv. rewrite Rabs_mult, (Rabs_right (/ sqrt 2)); [reflexivity|].
    left. apply Rinv_0_lt_compat. exact S0. }
  pose proof (Rabs_pos_lt _ T) as TP.
  assert (L : Rabs (std * t) / sqrt 2 < Rabs (std * t)).
  { apply (Rmult_lt_reg_r (sqrt 2)); [exact S0|]. replace (Rabs (std * t) / sqrt 2 * sqrt 2) with (Rabs (std * t) * 1) by (field; lra). apply Rmult_lt_compat_l; lra. }
  split; [exact E|]. split; [rewrite E; exact L|].
  intros Q. assert (Rabs (mu + std / sqrt 2 * t - mu) = Rabs (std * t)) by (rewrite Q; f_equal; ring). lra.
Qed.
Print Assumptions C75_scale_refuted.

(** ** The hypotheses are met *)
(** A covariance of the plane, levels given in each of the three ways, and rounding up. *)
Example C74_applies : let q := / sqrt 2 in
  svd_ok (fun _ => Ok (m22 q (- q) q q, (3, 1))) 2 1 1 2 /\ atan2_ok angle /\ 0 < 2 /\ 0 < 2 * 2 - 1 * 1 /\
  asked (fun p => 2 * p) (Some (One 9)) (Some (Many [1; 2])) (Some (One (/ 2))) [1; 4] /\
  asked (fun p => 2 * p) (Some (One 9)) None (Some (One (/ 2))) [1] /\
  asked (fun p => 2 * p) (Some (Many [1; 3; 9])) None None [1; 3; 9] /\
  (exists ceil, ceil_ok ceil) /\
  (Forall (fun p => 0 <= p) [/ 4; / 2; / 4] /\ total [/ 4; / 2; / 4] = 1).
Proof.
  cbv zeta. destruct C67_applies as (A & _ & B). split; [exact A|]. split; [exact B|]. split; [lra|]. split; [lra|].
  split. { replace [1; 4] with (map (fun s => s * s) [1; 2]) by (cbn; repeat f_equal; lra). apply by_std; [right; reflexivity|]. repeat constructor; lra. }
  split. { replace [1] with (map (fun p => 2 * p * (2 * p)) [/ 2]) by (cbn; repeat f_equal; lra). apply by_interval; [left; split; reflexivity|]. repeat constructor; lra. }
  split. { apply by_variance; [right; reflexivity|]. repeat constructor; lra. }
  split.
  - exists (fun x => Z.to_nat (1 - up (- x))). intros x k Hx.
    assert (U : (1 - Z.of_nat k)%Z = up (- x)).
    { apply tech_up; rewrite minus_IZR, <- INR_IZR_INZ; lra. }
    rewrite <- U. lia.
  - split; [repeat constructor; lra|cbn; lra].
Qed.

(** An argsort, by insertion. *)
Fixpoint ins (key : nat -> R) (i : nat) (l : list nat) : list nat :=
  match l with [] => [i] | j :: t => if Rle_dec (key i) (key j) then i :: l else j :: ins key i t end.
Definition asort (l : list R) : list nat := fold_right (ins (fun i => nth i l 0)) [] (seq 0 (length l)).
Lemma ins_perm key i l : Permutation (ins key i l) (i :: l).
Proof. induction l as [|j t IH]; cbn; [reflexivity|]. destruct Rle_dec; [reflexivity|]. rewrite IH. apply perm_swap. Qed.
Lemma ins_sorted key i l : StronglySorted (fun a b => key a <= key b) l -> StronglySorted (fun a b => key a <= key b) (ins key i l).
Proof.
  induction 1 as [|j t S IH F]; cbn; [repeat constructor|]. destruct Rle_dec as [H|H].
  - constructor; [constructor; assumption|]. constructor; [exact H|]. rewrite Forall_forall in *. intros x Hx. specialize (F x Hx). lra.
  - constructor; [exact IH|]. rewrite Forall_forall in *. intros x Hx. apply (Permutation_in _ (ins_perm key i t)) in Hx as [<-|Hx]; [lra|auto].
Qed.
Lemma asort_ok : argsort_ok asort.
Proof.
  intros l.
  assert (G : forall key s, Permutation (fold_right (ins key) [] s) s /\ StronglySorted (fun a b => key a <= key b) (fold_right (ins key) [] s)).
  { intros key. induction s as [|i s [IH1 IH2]]; cbn; [split; [reflexivity|constructor]|].
    split; [rewrite ins_perm, IH1; reflexivity|apply ins_sorted, IH2]. }
  destruct (G (fun i => nth i l 0) (seq 0 (length l))) as [P S]. fold (asort l) in P, S. split; [exact P|].
  assert (L : length (asort l) = length l) by (rewrite (Permutation_length P); apply seq_length). rewrite <- L. clear P L.
  induction S as [|a t S IH F]; intros j k Hjk; [cbn in Hjk; lia|].
  destruct k as [|k]; [destruct j; [lra|lia]|]. destruct j as [|j].
  - cbn [nth]. rewrite Forall_forall in F. apply F. apply nth_In. cbn in Hjk. lia.
  - cbn [nth]. apply IH. cbn in Hjk. lia.
Qed.
(** A correlated covariance in space, with eigenvalues 3, 1 and 4, and one that is indefinite. *)
Definition m33 (f : list (list R)) : M RO 3 3 := @mfun RO 3 3 (fun i j => nth j (nth i f []) 0).
Example C74_surface_applies : let q := / sqrt 2 in
  let E := m33 [[q; - q; 0]; [q; q; 0]; [0; 0; 1]] in
  let C := m33 [[2; 1; 0]; [1; 2; 0]; [0; 0; 4]] in
  let D := m33 [[1; 2; 0]; [2; 1; 0]; [0; 0; 4]] in
  eigh_ok (fun _ => Ok ([3; 1; 4], E)) C /\ eigh_ok (fun _ => Ok ([3; - 1; 4], E)) D /\ argsort_ok asort /\
  (forall x, (exists i, (i < 3)%nat /\ x i <> 0) -> 0 < sym_form C x) /\ (exists x, sym_form D x < 0).
Proof.
  cbv zeta. set (q := / sqrt 2).
  assert (h : q * q = / 2). { unfold q. rewrite <- Rinv_mult_distr by (apply Rgt_not_eq, sqrt_lt_R0; lra). f_equal. apply sqrt_sqrt. lra. }
  clearbody q.
  split; [|split; [|split; [exact asort_ok|split]]].
  - do 2 eexists. split; [reflexivity|]. split; [reflexivity|].
    split; [|split]; intros i c Hi Hc; destruct i as [|[|[|i]]]; try lia; destruct c as [|[|[|c]]]; try lia; unfold sum3, m33, kd; rewrite !get33 by lia; cbn [nth Nat.eqb]; lra.
  - do 2 eexists. split; [reflexivity|]. split; [reflexivity|].
    split; [|split]; intros i c Hi Hc; destruct i as [|[|[|i]]]; try lia; destruct c as [|[|[|c]]]; try lia; unfold sum3, m33, kd; rewrite !get33 by lia; cbn [nth Nat.eqb]; lra.
  - intros x (i & Hi & Hx). unfold sym_form, sum3, m33. rewrite !get33 by lia. cbn [nth].
    pose proof (Rle_0_sqr (x 0%nat)). pose proof (Rle_0_sqr (x 1%nat)). pose proof (Rle_0_sqr (x 2%nat)). pose proof (Rle_0_sqr (x 0%nat + x 1%nat)). unfold Rsqr in *.
    pose proof (Rsqr_pos_lt _ Hx) as P. unfold Rsqr in P. destruct i as [|[|[|i]]]; try lia; lra.
  - exists (fun i => match i with 0%nat => 1 | 1%nat => - 1 | _ => 0 end). unfold sym_form, sum3, m33. rewrite !get33 by lia. cbn [nth]. lra.
Qed.
Example C75_applies : 0 < 7 /\ 0 < (fun a : R => a) (7 / 2) /\ 0 < 1 /\ 1 <> 0.
Proof. cbv beta. repeat split; lra. Qed.
