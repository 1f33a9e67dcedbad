(** * C71: which arrays the filters share with their callers, and when a kept reference changes. *)
From Coq Require Import List Arith Lia Bool QArith.
From Verif Require Import Ops ListOps Model_KF Spec_KF Model_Sqrt Model_LSQ Model_GH Model_MM Model_Refs Spec_Refs Proof_Refs
  Prop_UKF_ex Prop_MM_ex Prop_Sqrt_ex.
Import ListNotations.
Open Scope nat_scope.

Section KF.
Context {o : nops} {n m l : nat}.
Notation kf := (kf o n m l).
Notation kf_call := (kf_call o n m l).
Notation r_event := (@r_event o n m l).

(** A program may keep any array it reads from the filter and write into it later, as long as the filter
    no longer uses that array.  Then the object behaves as one whose attributes are values: after
    every history of calls, assignments and writes its attributes read as in the other models, and the next
    call raises the same exception. *)
Theorem C71_values_suffice : forall (es : list r_event) (v : kf), polite es (r_init v) ->
  r_read (r_run es (r_init v)) = v_run es v /\
  forall c, snd (r_step c (r_run es (r_init v))) = snd (kf_step c (v_run es v)).
Proof.
  intros es v Hp. destruct (run_refines es (r_init v) (init_separated v) Hp) as [Hs E]. rewrite init_read in E.
  split; [exact E|]. intros c. destruct (step_refines c _ Hs) as (_ & _ & ->). rewrite E; reflexivity.
Qed.

(** Without update_sequential no call changes an array that exists: what a program once read from x, y or K, and the
    array it assigned to x, keep their contents. *)
Theorem C71_arrays_kept : forall (cl : list kf_call) (s : rk), (forall c, In c cl -> sequential c = false) ->
  let s' := r_run (map RCall cl) s in
  (exists a, r_hx s' = r_hx s ++ a) /\ (exists a, r_hy s' = r_hy s ++ a) /\ (exists a, r_hK s' = r_hK s ++ a).
Proof.
  induction cl as [|c cl IH]; intros s H.
  - cbn. repeat split; exists []; rewrite app_nil_r; reflexivity.
  - destruct (step_extends c s (H c (or_introl eq_refl))) as ([a1 A1] & [a2 A2] & [a3 A3]).
    destruct (IH (fst (r_step c s)) (fun c' Hc => H c' (or_intror Hc))) as ([b1 B1] & [b2 B2] & [b3 B3]).
    cbn [map r_run fold_left r_do] in *. unfold r_run in *.
    rewrite B1, B2, B3, A1, A2, A3. rewrite <- !app_assoc. repeat split; eexists; reflexivity.
Qed.

(** With any calls: the array a program assigned to kf.x shows the filter's estimate until the first call that computes
    a new one, and from then on what it showed last. *)
Theorem C71_assigned_array : forall (es : list r_event) (v : kf) (a : M o n 1) (cl : list kf_call), polite es (r_init v) ->
  let s := r_do (RAssign a) (r_run es (r_init v)) in
  nth (r_x s) (r_hx (r_run (map RCall cl) s)) (mzeros n 1) = follows cl (set_kf_x a (v_run es v)).
Proof.
  intros es v a cl Hp s. destruct (run_refines es (r_init v) (init_separated v) Hp) as [Hs E]. rewrite init_read in E.
  destruct (do_refines (RAssign a) _ Hs (conj I I)) as [Hs' E']. fold s in Hs', E'. cbn [v_do] in E'. rewrite E in E'.
  rewrite <- E'. apply follows_ok; auto.
Qed.
End KF.
Print Assumptions C71_values_suffice.
Print Assumptions C71_arrays_kept.
Print Assumptions C71_assigned_array.

(** update_sequential does change the caller's array. *)
Definition seq_call (z : Q) : kf_call QO 1 1 1 := @CUpdateSeq QO 1 1 1 1 (l_inv1 QS) 0 [[z]] None None.
Theorem C71_callers_array_refuted :
  let s := r_do (RAssign ([[0%Q]] : M QO 1 1)) (r_init (k1 0 1 1 1 0 1)) in
  let s' := fst (r_step (seq_call 4) s) in
  snd (r_step (seq_call 4) s) = None /\
  nth (r_x s) (r_hx s) [] = [[0%Q]] /\ nth (r_x s) (r_hx s') [] = [[2%Q]] /\
  (* and the estimate kept from kf.x *)
  let t := fst (r_step (CUpdate (Some ([[4%Q]] : M QO 1 1)) None None) s) in
  let t' := fst (r_step (seq_call 5) t) in
  kf_x (r_read t) = [[2%Q]] /\ nth (r_x t) (r_hx t') [] = [[3%Q]].
Proof. vm_compute. repeat split. Qed.
Print Assumptions C71_callers_array_refuted.

(** A history with every kind of event. *)
Example C71_applies :
  let es := [RCall (CPredict None None None None); RAssign ([[1%Q]] : M QO 1 1); RHeld 3 ([[9%Q]] : M QO 1 1);
             RCall (CUpdate (Some ([[4%Q]] : M QO 1 1)) None None); RPoke ([[5%Q]] : M QO 1 1); RCall (seq_call 4);
             RCall (CPredict None None None None)] in
  let s := r_run es (r_init (k1 0 1 1 1 0 1)) in
  polite es (r_init (k1 0 1 1 1 0 1)) /\
  (* the array assigned by the program still shows 1, the one it wrote into 9 *)
  (kf_x (r_read s), nth 5 (r_hx s) [], nth 3 (r_hx s) []) = ([[14#3]]%Q, [[1%Q]], [[9%Q]]) /\
  follows [seq_call 4; CUpdate None None None; seq_call 1; CPredict None None None None; seq_call 7] (k1 0 1 1 1 0 1) = [[5#3]]%Q.
Proof. vm_compute. repeat split; discriminate. Qed.

(** ** Filters that write into x *)
Section Writers.
Variable o : sops.

(** What is read at once is what the value model says, for every history of updates and resets. *)
Theorem C71_lsq_reads : forall (cl : list (lsq_call o)) (s : lsq o) d,
  cs_read (lsq_cell o) d (fold_left (fun t c => cs_step (lsq_cell o) d c t) cl (cs_init (lsq_cell o) s)) =
  fold_left (fun t c => match c with LUpdate z => lsq_update z t | LReset _ => lsq_reset t end) cl s.
Proof.
  intros cl s d. etransitivity; [apply crun_ok|].
  - intros [[a b] c] t; reflexivity.
  - intros []; reflexivity.
  - intros [z|] t E; discriminate E.
  - cbn; lia.
  - rewrite cinit_read; [reflexivity|intros []; reflexivity].
Qed.

(** LeastSquaresFilter.update returns x itself.  A program that collects the returned estimates has, in the
    end, a list of one array: every element reads as the last estimate since the last reset. *)
Theorem C71_lsq_collected : forall (zs ws : list (sc o)) (s : lsq o) d,
  let upd := fold_left (fun t z => lsq_update z t) in
  let x := fun t : lsq o => (l_x0 t, l_x1 t, l_x2 t) in
  cs_kept (lsq_cell o) d (map (@LUpdate o) zs) (cs_init (lsq_cell o) s) = repeat (x (upd zs s)) (length zs) /\
  cs_kept (lsq_cell o) d (map (@LUpdate o) zs ++ LReset o :: map (@LUpdate o) ws) (cs_init (lsq_cell o) s) =
    repeat (x (upd zs s)) (length zs) ++ repeat (x (upd ws (lsq_reset (upd zs s)))) (S (length ws)).
Proof.
  intros zs ws s d upd x.
  assert (GS : forall v t, c_get (lsq_cell o) (c_set (lsq_cell o) v t) = v) by (intros [[a b] c] t; reflexivity).
  assert (SG : forall t, c_set (lsq_cell o) (c_get (lsq_cell o) t) t = t) by (intros []; reflexivity).
  assert (KP : forall c t, c_eff (lsq_cell o) c t = Keep -> c_get (lsq_cell o) (c_step (lsq_cell o) c t) = c_get (lsq_cell o) t)
    by (intros [z|] t E; discriminate E).
  assert (UP : forall l t, fold_left (fun t c => c_step (lsq_cell o) c t) (map (@LUpdate o) l) t = upd l t)
    by (induction l as [|z l IH]; intros t; [reflexivity|apply (IH (lsq_update z t))]).
  assert (WR : forall l (c : lsq_call o) (t : lsq o), In c (map (@LUpdate o) l) -> c_eff (lsq_cell o) c t = Write).
  { intros l [z|] t; [reflexivity|]. rewrite in_map_iff. intros (q & E & _); discriminate E. }
  assert (P1 : cs_kept (lsq_cell o) d (map (@LUpdate o) zs) (cs_init (lsq_cell o) s) = repeat (x (upd zs s)) (length zs)).
  { rewrite kept_write; auto; try (cbn; lia); try apply WR. rewrite cinit_read, UP, map_length; auto. }
  split; [exact P1|].
  rewrite kept_app_new; auto; try (cbn; lia); try apply WR. rewrite P1. f_equal.
  destruct (crun_ok _ _ _ (lsq_cell o) d GS SG KP (map (@LUpdate o) zs) (cs_init (lsq_cell o) s)) as [L E]; [cbn; lia|].
  set (t := fold_left _ _ (cs_init _ _)) in *. rewrite cinit_read, UP in E by auto.
  (* the reset, then only writes *)
  destruct (cstep_ok _ _ _ (lsq_cell o) d GS SG KP (LReset o) t L) as [L2 E2]. rewrite E in E2.
  pose proof (kept_write _ _ _ (lsq_cell o) d GS SG KP (map (@LUpdate o) ws) (cs_step (lsq_cell o) d (LReset o) t) L2 (WR ws)) as K.
  rewrite E2, UP, map_length in K.
  destruct (collect_write _ _ _ (lsq_cell o) d (map (@LUpdate o) ws) (cs_step (lsq_cell o) d (LReset o) t) (WR ws)) as [_ X].
  destruct (crun_ok _ _ _ (lsq_cell o) d GS SG KP (map (@LUpdate o) ws) (cs_step (lsq_cell o) d (LReset o) t) L2) as [_ E3].
  pose proof (collect_fst _ _ _ (lsq_cell o) d (map (@LUpdate o) ws) (cs_step (lsq_cell o) d (LReset o) t)) as F.
  unfold cs_kept in *. cbn [cs_collect]. destruct (cs_collect _ _ (map (@LUpdate o) ws) _) as [s' r]. cbn [fst] in F. cbn [map repeat].
  rewrite K. f_equal. rewrite E2, UP in E3.
  change (x (upd ws (lsq_reset (upd zs s)))) with (c_get (lsq_cell o) (upd ws (c_step (lsq_cell o) (LReset o) (upd zs s)))).
  rewrite <- E3, F. etransitivity; [|symmetry; apply GS]. rewrite X. reflexivity.
Qed.

(** FadingMemoryFilter: order 0 binds a new array at each update, so kept references show the history;
    orders 1 and 2 overwrite the one array. *)
Theorem C71_fmf_collected : forall (zs : list (sc o)) (s : fmf o) d,
  let x := fun t : fmf o => (m_x0 t, m_x1 t, m_x2 t) in
  cs_kept (fmf_cell o) d zs (cs_init (fmf_cell o) s) =
  match m_order s with
  | 0 => map x (trace (fun z t => fmf_update z t) zs s)
  | _ => repeat (x (fold_left (fun t z => fmf_update z t) zs s)) (length zs)
  end.
Proof.
  intros zs s d x.
  assert (GS : forall v t, c_get (fmf_cell o) (c_set (fmf_cell o) v t) = v) by (intros [[a b] c] t; reflexivity).
  assert (SG : forall t, c_set (fmf_cell o) (c_get (fmf_cell o) t) t = t) by (intros []; reflexivity).
  assert (OR : forall z (t : fmf o), m_order (fmf_update z t) = m_order t).
  { intros z t. unfold fmf_update. destruct (m_order t) as [|[|k]]; reflexivity. }
  assert (KP : forall c (t : fmf o), c_eff (fmf_cell o) c t = Keep -> c_get (fmf_cell o) (c_step (fmf_cell o) c t) = c_get (fmf_cell o) t).
  { intros z t. cbn. destruct (m_order t); discriminate. }
  assert (IN : cs_read (fmf_cell o) d (cs_init (fmf_cell o) s) = s) by (apply cinit_read; auto).
  destruct (m_order s) as [|k] eqn:Eo.
  - rewrite (kept_new _ _ _ (fmf_cell o) d GS SG KP (fun t : fmf o => m_order t = 0)).
    + rewrite IN. reflexivity.
    + intros c t H. cbn. rewrite OR; exact H.
    + intros c t H. cbn. rewrite H; reflexivity.
    + cbn; lia.
    + rewrite IN; exact Eo.
  - (* the same filter, told that it always writes *)
    set (W := mkCell (c_get (fmf_cell o)) (c_set (fmf_cell o)) (c_step (fmf_cell o)) (fun _ _ => Write)).
    assert (SAME : forall l t, cs_x t < length (cs_h t) -> m_order (cs_read (fmf_cell o) d t) = S k ->
              cs_collect (fmf_cell o) d l t = cs_collect W d l t).
    { induction l as [|z l IH]; intros t L Ht; [reflexivity|]. cbn [cs_collect].
      assert (St : cs_step (fmf_cell o) d z t = cs_step W d z t).
      { unfold cs_step. change (cs_read W d t) with (cs_read (fmf_cell o) d t). cbn [fmf_cell c_eff]. rewrite Ht. reflexivity. }
      destruct (cstep_ok _ _ _ (fmf_cell o) d GS SG KP z t L) as [L' E].
      rewrite <- St. rewrite IH; auto. rewrite E. cbn. rewrite OR; exact Ht. }
    unfold cs_kept. rewrite SAME; [|cbn; lia|rewrite IN; exact Eo].
    change (cs_init (fmf_cell o) s) with (cs_init W s).
    change (cs_kept W d zs (cs_init W s) = repeat (x (fold_left (fun t z => fmf_update z t) zs s)) (length zs)).
    rewrite (kept_write _ _ _ W d); auto.
    + change (cs_read W d (cs_init W s)) with (cs_read (fmf_cell o) d (cs_init (fmf_cell o) s)). rewrite IN. reflexivity.
    + intros c t E; discriminate E.
Qed.

(** GHFilterOrder overwrites the one array in every order, also when an update raises half way. *)
Theorem C71_gho_collected : forall (cl : list (sc o * option (sc o) * option (sc o) * option (sc o))) (s : gho o) d,
  cs_kept (gho_cell o) d cl (cs_init (gho_cell o) s) =
  repeat (gho_x (fold_left (fun t '(z, g, h, k) => fst (gho_update z g h k t)) cl s)) (length cl).
Proof.
  intros cl s d. rewrite kept_write.
  - rewrite cinit_read by (intros []; reflexivity). reflexivity.
  - reflexivity.
  - intros []; reflexivity.
  - intros c t E; discriminate E.
  - cbn; lia.
  - reflexivity.
Qed.
End Writers.
Print Assumptions C71_lsq_reads.
Print Assumptions C71_lsq_collected.
Print Assumptions C71_fmf_collected.
Print Assumptions C71_gho_collected.

(** Collecting what update returns, or x after each update, does not give the history of estimates. *)
Definition lsq1 : lsq QS := lsq_reset (@mkLSQ QS 1%Q 0%Q 1 0 0%Q 0%Q 0%Q 0%Q 0%Q 0%Q 0%Q).
Theorem C71_history_refuted :
  map (fun t : lsq QS => (l_x0 t, l_x1 t)) (trace (@lsq_update QS) [1; 3; 8]%Q lsq1) = [(1, 3); (3, 2); (15#2, 7#2)]%Q /\
  cs_kept (lsq_cell QS) (0, 0, 0)%Q (map (@LUpdate QS) [1; 3; 8]%Q) (cs_init (lsq_cell QS) lsq1) =
    [(15#2, 7#2, 0); (15#2, 7#2, 0); (15#2, 7#2, 0)]%Q.
Proof. vm_compute. split; reflexivity. Qed.
Print Assumptions C71_history_refuted.

(** ** SquareRootKalmanFilter *)
Section Sqrt.
Variable o : nops.
Variables n m l : nat.
Variable qr : forall p q, M o p q -> M o p q.
Variable pinv : M o m m -> M o m m.
(** Between predictions every reference to x shows the latest estimate, whoever holds it; a prediction leaves the old
    array to its holders.  So collecting x after each update of a predict/update loop is right, and collecting it
    after each update of a run of updates is not. *)
Theorem C71_sqrt_collected : forall (cl : list (sq_cfg o n m l * sq_call o m l)) (s : sq_st o n m) d,
  (forall c, In c cl -> exists z R, snd c = SUpdate (Some z) R) ->
  cs_kept (sq_cell n l qr pinv) d cl (cs_init (sq_cell n l qr pinv) s) =
    repeat (q_x (sq_run qr pinv cl s)) (length cl) /\
  forall c u cl', snd c = SPredict u ->
  cs_kept (sq_cell n l qr pinv) d (cl ++ c :: cl') (cs_init (sq_cell n l qr pinv) s) =
    repeat (q_x (sq_run qr pinv cl s)) (length cl) ++
    cs_kept (sq_cell n l qr pinv) d (c :: cl') (fold_left (fun t c => cs_step (sq_cell n l qr pinv) d c t) cl (cs_init (sq_cell n l qr pinv) s)).
Proof.
  intros cl s d H. set (A := sq_cell n l qr pinv).
  assert (GS : forall v t, c_get A (c_set A v t) = v) by reflexivity.
  assert (SG : forall t, c_set A (c_get A t) t = t) by (intros []; reflexivity).
  assert (KP : forall c t, c_eff A c t = Keep -> c_get A (c_step A c t) = c_get A t).
  { intros [cc [u|[z|] R]] t; cbn; try discriminate. reflexivity. }
  assert (WR : forall c (t : sq_st o n m), In c cl -> c_eff A c t = Write).
  { intros c t I. destruct (H c I) as (z & R & E). unfold A; cbn. rewrite E. reflexivity. }
  assert (P : cs_kept A d cl (cs_init A s) = repeat (q_x (sq_run qr pinv cl s)) (length cl)).
  { rewrite kept_write; auto; try (cbn; lia); try apply WR. rewrite cinit_read by auto. reflexivity. }
  split; [exact P|]. intros c u cl' E. rewrite kept_app_new; auto; try (cbn; lia); try apply WR; [rewrite P; reflexivity|].
  intros t. unfold A; cbn. rewrite E. reflexivity.
Qed.
End Sqrt.
Print Assumptions C71_sqrt_collected.

(** One update changes the array the caller assigned to x: it held 0, and now holds 16. *)
Theorem C71_sqrt_callers_array_refuted :
  let A := @sq_cell QO 1 1 1 ex_qr ex_pinv in
  let s := cs_init A ex_s in
  let s' := cs_step A [] (ex_c, SUpdate (Some (q1 25)) None) s in
  nth (cs_x s) (cs_h s) [] = q1 0 /\ nth (cs_x s) (cs_h s') [] = q1 16.
Proof. vm_compute. split; reflexivity. Qed.
Print Assumptions C71_sqrt_callers_array_refuted.

(** ** Two MMAEFilterBanks *)
(** Each with its own array of probabilities: for every interleaving of calls, each bank is where its own calls alone
    would have brought it. *)
Theorem C71_banks_independent : forall (o : nops) n m l T (D : filt o n m l T) N (cl : list (bool * mmae_call o n m l)) (b : banks o n m T N),
  b_p1 b < length (b_h b) -> b_p2 b < length (b_h b) -> b_p1 b <> b_p2 b ->
  b_read1 (b_run D cl b) = fold_left (fun s c => fst (mmae_step D c s)) (one false cl) (b_read1 b) /\
  b_read2 (b_run D cl b) = fold_left (fun s c => fst (mmae_step D c s)) (one true cl) (b_read2 b).
Proof. intros o n m l T D N cl b. apply banks_ok. Qed.
Print Assumptions C71_banks_independent.

(** Given the same array, an update of one changes the probabilities of the other: the second bank, which was never called,
    no longer has the probabilities it was given. *)
Definition bk (p : M QO 1 2) : mmae QO 1 1 (kf QO 1 1 1) 2 := mmae_init D1 (k1 0 1 1 1 0 1) bank2 p None None.
Theorem C71_banks_sharing_refuted :
  let p : M QO 1 2 := [[1#2; 1#2]]%Q in
  let c := @AUpdate QO 1 1 1 (Some [[4%Q]]) None None in
  let shared := mkB (bk p) (bk p) [p] 0 0 in
  let own := mkB (bk p) (bk p) [p; p] 0 1 in
  a_p (b_read2 shared) = p /\ a_p (b_read2 (b_run D1 [(false, c)] shared)) <> p /\
  a_p (b_read2 (b_run D1 [(false, c)] own)) = p /\
  a_p (b_read1 (b_run D1 [(false, c)] own)) = a_p (b_read1 (b_run D1 [(false, c)] shared)).
Proof. vm_compute. repeat split; discriminate. Qed.
Print Assumptions C71_banks_sharing_refuted.
