(** * FixedLagSmoother (C49), in any arithmetic. *)
From Coq Require Import List Arith Lia Bool.
From Verif Require Import Ops Model_FLS Spec_FLS Proof_RTS.
Import ListNotations.
Set Implicit Arguments.
Unset Strict Implicit.
Local Open Scope np_scope.

Section L.
Variable o : nops.
Variables n m l : nat.
Notation fls := (fls o n m).
Notation cfg := (fls_cfg o n m l).
Notation Z0 := (mzeros n 1 : M o n 1).

Lemma nth_err {A} (xs : list A) k d : k < length xs -> nth_error xs k = Some (nth k xs d).
Proof. revert k; induction xs as [|a xs IH]; intros [|k]; simpl; intros; try lia; auto. apply IH; lia. Qed.

(** The correction loop, entry by entry. *)
Lemma correct_loop W A y k : forall a P xs, k < length xs -> a <= k + 1 ->
  let r := fold_left (fls_correct (o := o) (n := n) (m := m) W A y k) (seq 0 a) (P, xs) in
  fst r = times P A a /\ length (snd r) = length xs /\
  forall j, nth_error (snd r) j =
    if (j <=? k) && (k <? j + a) then option_map (fun e => e + (times P A (k - j) @ W) @ y) (nth_error xs j) else nth_error xs j.
Proof.
  induction a as [|a IH]; intros P xs hk ha.
  - simpl. split; [reflexivity|split; [reflexivity|]]. intros j. destruct (j <=? k) eqn:E1; simpl; [|reflexivity].
    destruct (k <? j + 0) eqn:E2; [|reflexivity].
    apply Nat.leb_le in E1. apply Nat.ltb_lt in E2. lia.
  - rewrite seq_S, fold_left_app. cbn zeta. destruct (IH P xs hk ltac:(lia)) as (h1 & h2 & h3). clear IH.
    set (r := fold_left _ _ _) in *. clearbody r. destruct r as [PS ys]. simpl in *. subst PS.
    split; [reflexivity|]. rewrite set_nth_length. split; [exact h2|]. intros j.
    rewrite nth_error_set_nth by lia.
    destruct (j =? k - a) eqn:E.
    + apply Nat.eqb_eq in E. subst j.
      assert (e1 : (k - a <=? k) = true) by (apply Nat.leb_le; lia).
      assert (e2 : (k <? k - a + S a) = true) by (apply Nat.ltb_lt; lia).
      rewrite e1, e2. cbn [andb].
      assert (e3 : nth_error ys (k - a) = nth_error xs (k - a)).
      { rewrite h3, e1. cbn [andb]. destruct (k <? k - a + a) eqn:E3; [apply Nat.ltb_lt in E3; lia|reflexivity]. }
      replace (k - (k - a))%nat with a by lia.
      rewrite (nth_err (k := (k - a)%nat) (xs := ys) Z0) in e3 by lia. rewrite <- e3. reflexivity.
    + rewrite h3. apply Nat.eqb_neq in E.
      replace (k <? j + S a) with (k <? j + a) by (destruct (k <? j + a) eqn:E1, (k <? j + S a) eqn:E2; try reflexivity;
        repeat match goal with H : (_ <? _) = true |- _ => apply Nat.ltb_lt in H | H : (_ <? _) = false |- _ => apply Nat.ltb_ge in H end; lia).
      destruct (j <=? k) eqn:E4; [reflexivity|reflexivity].
Qed.

Ltac bool_arith := repeat match goal with
  | H : (_ <? _) = true |- _ => apply Nat.ltb_lt in H | H : (_ <? _) = false |- _ => apply Nat.ltb_ge in H
  | H : (_ <=? _) = true |- _ => apply Nat.leb_le in H | H : (_ <=? _) = false |- _ => apply Nat.leb_gt in H
  | H : (_ =? _) = true |- _ => apply Nat.eqb_eq in H | H : (_ =? _) = false |- _ => apply Nat.eqb_neq in H end.

(** One call. *)
Definition stored (N : nat) (t : kstep o n m) (xs : list (M o n 1)) : list (M o n 1) :=
  let k := length xs in
  let ys := xs ++ [k_pre t] in
  if N <=? k then snd (fold_left (fls_correct (k_W t) (k_A t) (k_y t) k) (seq 0 N) (k_P t, ys)) else set_nth ys k (k_x t).

Lemma smooth_step (c : cfg) N z u (s : fls) xs : fl_N c = Some N -> fl_xs s = Some xs -> fl_count s = length xs ->
  match cyc c (fl_x s) (fl_P s) z u with
  | None => exists s', fls_smooth c z u s = (s', Some LinAlgError) /\
      fl_x s' = fl_x s /\ fl_P s' = fl_P s /\ fl_count s' = fl_count s /\ fl_xs s' = fl_xs s
  | Some t => exists S, fls_smooth c z u s = (mkFL (k_x t) (k_P t) (k_y t) S (fl_count s + 1) (Some (stored N t xs)), None)
  end.
Proof.
  intros hN hx hc. unfold cyc, cycle, fls_smooth, stored. rewrite hN, hx, hc.
  destruct (fl_inv c _); [|eexists; split; [reflexivity|]; cbn; auto].
  eexists. reflexivity.
Qed.

Lemma stored_entries N t xs : 
  length (stored N t xs) = S (length xs) /\
  forall j, nth_error (stored N t xs) j =
    let k := length xs in
    if j =? k then Some (if k <? N then k_x t else if N =? 0 then k_pre t else k_pre t + bump t 0)
    else if (N <=? k) && (k <? j + N) then option_map (fun e => e + bump t (k - j)) (nth_error xs j)
    else nth_error xs j.
Proof.
  unfold stored. set (k := length xs).
  assert (hl : length (xs ++ [k_pre t]) = S k) by (rewrite app_length; simpl; unfold k; lia).
  destruct (N <=? k) eqn:E.
  - bool_arith.
    destruct (@correct_loop (k_W t) (k_A t) (k_y t) k N (k_P t) (xs ++ [k_pre t]) ltac:(lia) ltac:(lia)) as (_ & h2 & h3).
    split; [rewrite h2; exact hl|]. intros j. rewrite h3. cbn zeta.
    destruct (j =? k) eqn:Ej.
    + bool_arith. subst j. rewrite nth_error_app2 by (fold k; lia). fold k. rewrite Nat.sub_diag. cbn [nth_error option_map].
      rewrite Nat.leb_refl. cbn [andb]. destruct (k <? N) eqn:E1; [bool_arith; lia|]. destruct (N =? 0) eqn:E2; bool_arith.
      * subst N. destruct (k <? k + 0) eqn:E3; [bool_arith; lia|reflexivity].
      * destruct (k <? k + N) eqn:E3; [reflexivity|bool_arith; lia].
    + bool_arith. cbn [andb]. destruct (j <=? k) eqn:E1; bool_arith.
      * cbn [andb]. rewrite nth_error_app1 by (fold k; lia). reflexivity.
      * assert (nth_error (xs ++ [k_pre t]) j = None) as -> by (apply nth_error_None; lia).
        assert (nth_error xs j = None) as -> by (apply nth_error_None; fold k; lia). cbn [andb option_map]. destruct (k <? j + N); reflexivity.
  - bool_arith. split; [rewrite set_nth_length; exact hl|]. intros j. rewrite nth_error_set_nth by lia. cbn zeta.
    destruct (j =? k) eqn:Ej.
    + destruct (k <? N) eqn:E1; [reflexivity|bool_arith; lia].
    + bool_arith. cbn [andb]. destruct (Nat.lt_ge_cases j k).
      * apply nth_error_app1. exact H.
      * transitivity (@None (M o n 1)); [|symmetry]; apply nth_error_None; [|exact H]. rewrite hl. lia.
Qed.

Definition is_entries N (ks : list (kstep o n m)) (xs : list (M o n 1)) := length xs = length ks /\ forall j, nth_error xs j = entry N ks j.

Lemma entry_old N (ks : list (kstep o n m)) t j : j < length ks ->
  entry N (ks ++ [t]) j =
  if (N <=? length ks) && (length ks <? j + N) then option_map (fun e => e + bump t (length ks - j)) (entry N ks j) else entry N ks j.
Proof.
  intros hj. unfold entry. rewrite nth_error_app1 by exact hj.
  destruct (nth_error ks j) as [s|] eqn:E; [|apply nth_error_None in E; lia].
  rewrite app_length. cbn [length].
  set (b := if j <? N then k_x s else k_pre s). clearbody b. clear E s.
  assert (ext : forall a q b, q = 0 \/ a + q <= length ks -> fold_left (fun e k => match nth_error (ks ++ [t]) k with None => e | Some t => e + bump t (k - j) end) (seq a q) b
    = fold_left (fun e k => match nth_error ks k with None => e | Some t => e + bump t (k - j) end) (seq a q) b).
  { intros a q. revert a. induction q as [|q IH]; intros a b' h; cbn; [reflexivity|]. rewrite nth_error_app1 by lia. apply IH. lia. }
  destruct ((N <=? length ks) && (length ks <? j + N)) eqn:E.
  - apply andb_true_iff in E. destruct E. bool_arith. cbn [option_map]. f_equal.
    replace (min (j + N) (length ks + 1) - max N j)%nat with (S (length ks - max N j)%nat) by lia.
    replace (min (j + N) (length ks) - max N j)%nat with (length ks - max N j)%nat by lia.
    rewrite seq_S, fold_left_app. cbn [fold_left].
    replace (max N j + (length ks - max N j))%nat with (length ks) by lia.
    rewrite nth_error_app2 by lia. rewrite Nat.sub_diag. cbn [nth_error]. f_equal. apply ext. lia.
  - f_equal. replace (min (j + N) (length ks + 1) - max N j)%nat with (min (j + N) (length ks) - max N j)%nat.
    + apply ext. lia.
    + apply andb_false_iff in E. destruct E; bool_arith; lia.
Qed.

Lemma entry_new N (ks : list (kstep o n m)) t :
  entry N (ks ++ [t]) (length ks) =
  Some (if length ks <? N then k_x t else if N =? 0 then k_pre t else k_pre t + bump t 0).
Proof.
  unfold entry. rewrite nth_error_app2 by lia. rewrite Nat.sub_diag. cbn [nth_error]. rewrite app_length. cbn [length]. f_equal.
  destruct (length ks <? N) eqn:E; bool_arith.
  - replace (min _ _ - _)%nat with 0 by lia. reflexivity.
  - destruct (N =? 0) eqn:E2; bool_arith.
    + replace (min _ _ - _)%nat with 0 by lia. reflexivity.
    + replace (min _ _ - _)%nat with 1 by lia. replace (max N (length ks)) with (length ks) by lia. cbn [seq fold_left].
      rewrite nth_error_app2 by lia. rewrite !Nat.sub_diag. reflexivity.
Qed.

Lemma is_entries_step N ks t xs : is_entries N ks xs -> is_entries N (ks ++ [t]) (stored N t xs).
Proof.
  intros [h1 h2]. destruct (stored_entries N t xs) as [h3 h4]. split.
  - rewrite h3, app_length. cbn. lia.
  - intros j. rewrite h4. cbn zeta. rewrite h1. destruct (j =? length ks) eqn:E; bool_arith.
    + subst j. symmetry. apply entry_new.
    + rewrite h2. destruct (Nat.lt_ge_cases j (length ks)).
      * symmetry. apply entry_old. exact H.
      * assert (e1 : entry N ks j = None) by (unfold entry; replace (nth_error ks j) with (@None (kstep o n m)) by (symmetry; apply nth_error_None; lia); reflexivity).
        assert (e2 : entry N (ks ++ [t]) j = None) by (unfold entry; replace (nth_error (ks ++ [t]) j) with (@None (kstep o n m)) by (symmetry; apply nth_error_None; rewrite app_length; cbn; lia); reflexivity).
        rewrite e1, e2. destruct (_ && _); reflexivity.
Qed.

Definition smoothed N (ks : list (kstep o n m)) xs := fold_left (fun xs t => stored N t xs) ks xs.
Lemma smoothed_entries N ks : forall ks0 xs, is_entries N ks0 xs -> is_entries N (ks0 ++ ks) (smoothed N ks xs).
Proof.
  induction ks as [|t ks IH]; intros ks0 xs h; [now rewrite app_nil_r|].
  cbn. replace (ks0 ++ t :: ks) with ((ks0 ++ [t]) ++ ks) by (rewrite <- app_assoc; reflexivity).
  apply IH, is_entries_step, h.
Qed.

(** The online smoother. *)
Lemma run_smoothed (c : cfg) N zs : fl_N c = Some N -> forall (s : fls) xs,
  fl_xs s = Some xs -> fl_count s = length xs ->
  let (ks, ok) := pass c zs (fl_x s) (fl_P s) in
  exists s', fls_run c zs s = (s', map (k_x (m := m)) ks, if ok then None else Some LinAlgError) /\
    fl_xs s' = Some (smoothed N ks xs) /\ fl_count s' = (length xs + length ks)%nat /\
    fl_x s' = last (map (k_x (m := m)) ks) (fl_x s) /\ fl_P s' = last (map (k_P (m := m)) ks) (fl_P s).
Proof.
  intros hN. induction zs as [|[z u] zs IH]; intros s xs hx hc; cbn [pass fls_run].
  - exists s. cbn. rewrite Nat.add_0_r. auto.
  - pose proof (smooth_step z u hN hx hc) as hs. destruct (cyc _ _ _ _ _) as [t|].
    + destruct hs as [S hs]. rewrite hs.
      specialize (IH (mkFL (k_x t) (k_P t) (k_y t) S (fl_count s + 1) (Some (stored N t xs))) (stored N t xs) eq_refl).
      cbn [fl_x fl_P fl_count] in IH. destruct (pass c zs _ _) as [ks ok].
      assert (hl : length (stored N t xs) = Datatypes.S (length xs)) by apply stored_entries.
      destruct IH as (s' & e & h1 & h2 & h3 & h4); [lia|].
      exists s'. rewrite e, h2, hl. split; [reflexivity|]. split; [exact h1|]. split; [cbn; lia|].
      rewrite h3, h4. cbn [map]. 
      assert (hlast : forall A (a d : A) r, last r a = last (a :: r) d).
      { intros A a d r. revert a. induction r as [|b r IHr]; intros a; cbn; [reflexivity|]. destruct r; [reflexivity|]. apply (IHr a). }
      split; apply hlast.
    + destruct hs as (s' & e & h1 & h2 & h3 & h4). rewrite e. exists s'. rewrite h4, h3, h1, h2, hx, Nat.add_0_r. cbn. auto.
Qed.

(** The batch smoother. *)
Lemma set_nth_app {A} (xs : list A) a v ys : set_nth (xs ++ a :: ys) (length xs) v = xs ++ v :: ys.
Proof. induction xs as [|x xs IH]; cbn; [reflexivity|]. now rewrite IH. Qed.
Lemma set_nth_app1 {A} (xs : list A) ys k v : k < length xs -> set_nth (xs ++ ys) k v = set_nth xs k v ++ ys.
Proof. revert k; induction xs as [|x xs IH]; intros [|k]; cbn; intros; try lia; auto. now rewrite IH by lia. Qed.

Lemma correct_app W A y k ys : forall a P xs, k < length xs ->
  fold_left (fls_correct (o := o) (n := n) (m := m) W A y k) (seq 0 a) (P, xs ++ ys) =
  let r := fold_left (fls_correct W A y k) (seq 0 a) (P, xs) in (fst r, snd r ++ ys).
Proof.
  intros a P xs. assert (H : forall b st st', k < length (snd st) -> fst st' = fst st -> snd st' = snd st ++ ys ->
    let r := fold_left (fls_correct (o := o) (n := n) (m := m) W A y k) b st in
    fold_left (fls_correct W A y k) b st' = (fst r, snd r ++ ys)).
  { induction b as [|i b IH]; intros [P1 x1] [P2 x2]; cbn [fst snd fold_left]; intros h1 -> ->; [reflexivity|].
    apply IH; cbn [fls_correct fst snd].
    - rewrite set_nth_length. exact h1.
    - reflexivity.
    - rewrite set_nth_app1 by lia. rewrite app_nth1 by lia. reflexivity. }
  intros h. apply H; cbn; auto.
Qed.

(** Inputs of the batch call, paired as smooth would get them. *)
Fixpoint inputs (zs : list (M o m 1)) (us : option (list (M o l 1))) : list (M o m 1 * option (M o l 1)) :=
  match zs with
  | [] => []
  | z :: r =>
      match us with
      | None => (z, None) :: inputs r None
      | Some [] => []
      | Some (u :: us) => (z, Some u) :: inputs r (Some us)
      end
  end.

Lemma skip_us (us : list (M o l 1)) k : nth_error us k = hd_error (skipn k us) /\ skipn (S k) us = tl (skipn k us).
Proof. revert k; induction us as [|u us IH]; intros [|k]; cbn; auto. apply (IH k). Qed.

Lemma batch_smoothed (c : cfg) N us : forall zs x P ks0 xs hs,
  length hs = length xs -> hs = map (k_x (m := m)) ks0 ->
  let zus := inputs zs (option_map (skipn (length xs)) us) in
  let (ks, ok) := pass c zus x P in
  let pad := repeat Z0 (length zs) in
  fls_batch_loop c N us (length xs) zs x P (xs ++ pad) (hs ++ pad) =
    if ok then if length zs <=? length zus then Ok (smoothed N ks xs, map (k_x (m := m)) (ks0 ++ ks)) else Err IndexError
    else Err LinAlgError.
Proof.
  induction zs as [|z zs IH]; intros x P ks0 xs hs hl hh; cbn zeta.
  - cbn. rewrite !app_nil_r. now rewrite hh.
  - assert (hgo : forall u, 
       match us with None => u = None | Some v => exists w, u = Some w /\ nth_error v (length xs) = Some w end ->
       fls_batch_loop c N us (length xs) (z :: zs) x P (xs ++ repeat Z0 (S (length zs))) (hs ++ repeat Z0 (S (length zs))) =
       match cyc c x P z u with None => Err LinAlgError | Some t => 
       fls_batch_loop c N us (length (stored N t xs)) zs (k_x t) (k_P t) (stored N t xs ++ repeat Z0 (length zs)) ((hs ++ [k_x t]) ++ repeat Z0 (length zs)) end).
    { intros u hu'. cbn [fls_batch_loop repeat].
      assert (e1 : forall v, set_nth (hs ++ Z0 :: repeat Z0 (length zs)) (length xs) v = (hs ++ [v]) ++ repeat Z0 (length zs)).
      { intros v. rewrite <- hl, set_nth_app, <- app_assoc. reflexivity. }
      assert (e2 : forall t, (if N <=? length xs
              then snd (fold_left (fls_correct (k_W t) (k_A t) (k_y t) (length xs)) (seq 0 N) (k_P t, xs ++ k_pre t :: repeat Z0 (length zs)))
              else set_nth (xs ++ k_pre t :: repeat Z0 (length zs)) (length xs) (nth (length xs) ((hs ++ [k_x t]) ++ repeat Z0 (length zs)) Z0))
           = stored N t xs ++ repeat Z0 (length zs)).
      { intros t'. unfold stored. replace (xs ++ k_pre t' :: repeat Z0 (length zs)) with ((xs ++ [k_pre t']) ++ repeat Z0 (length zs)) by (rewrite <- app_assoc; reflexivity).
        destruct (N <=? length xs).
        - rewrite correct_app by (rewrite app_length; cbn; lia). reflexivity.
        - rewrite set_nth_app1 by (rewrite app_length; cbn; lia). rewrite app_nth1 by (rewrite app_length; cbn; lia).
          rewrite <- hl at 2. now rewrite nth_middle. }
      assert (e3 : forall t, length (stored N t xs) = (length xs + 1)%nat) by (intros t'; destruct (stored_entries N t' xs) as [-> _]; lia).
      unfold cyc, cycle.
      destruct us as [v|]; [destruct hu' as (w & -> & hw); rewrite hw|subst u]; cbn [rbind];
        (destruct (fl_inv c _) as [SI|]; [|reflexivity]);
        cbv zeta; rewrite !(set_nth_app xs Z0), e1, e3; exact (f_equal (fun q => fls_batch_loop c N _ (length xs + 1) zs _ _ q _) (e2 (mkStep _ _ _ _ _ _))). }
    assert (hrest : forall u t us', 
       match us with None => u = None | Some v => exists w, u = Some w /\ nth_error v (length xs) = Some w end ->
       cyc c x P z u = Some t -> option_map (skipn (length xs + 1)) us = us' ->
       let (ks, ok) := pass c (inputs zs us') (k_x t) (k_P t) in
       fls_batch_loop c N us (length xs) (z :: zs) x P (xs ++ repeat Z0 (S (length zs))) (hs ++ repeat Z0 (S (length zs))) =
       if ok then if S (length zs) <=? S (length (inputs zs us')) then Ok (smoothed N (t :: ks) xs, map (k_x (m := m)) (ks0 ++ t :: ks)) else Err IndexError
       else Err LinAlgError).
    { intros u t us' h1 h2 h3. rewrite (hgo u h1), h2.
      assert (hl3 : length (stored N t xs) = (length xs + 1)%nat) by (destruct (stored_entries N t xs) as [-> _]; lia).
      specialize (IH (k_x t) (k_P t) (ks0 ++ [t]) (stored N t xs) (hs ++ [k_x t])). cbn zeta in IH.
      rewrite hl3, h3 in IH. rewrite hl3. destruct (pass c _ _ _) as [ks ok]. rewrite IH.
      - rewrite <- app_assoc. reflexivity.
      - rewrite app_length. cbn. lia.
      - rewrite map_app, hh. reflexivity. }
    destruct us as [v|]; cbn [option_map] in *.
    + destruct (skip_us v (length xs)) as [e1 e2]. rewrite <- (Nat.add_1_r (length xs)) in e2.
      destruct (skipn (length xs) v) as [|u r]; cbn [inputs pass hd_error tl] in *.
      * cbn [length Nat.leb]. cbn [fls_batch_loop]. rewrite e1. reflexivity.
      * destruct (cyc c x P z (Some u)) as [t|] eqn:Ec.
        -- specialize (hrest (Some u) t (Some r)). rewrite e2 in hrest. specialize (hrest ltac:(eauto) Ec eq_refl).
           destruct (pass c _ _ _) as [ks ok]. exact hrest.
        -- cbn [length repeat] in *. rewrite (hgo (Some u)), Ec by eauto. reflexivity.
    + cbn [inputs pass]. destruct (cyc c x P z None) as [t|] eqn:Ec.
      * specialize (hrest None t None eq_refl Ec eq_refl). destruct (pass c _ _ _) as [ks ok]. exact hrest.
      * cbn [length repeat] in *. rewrite (hgo None), Ec by reflexivity. reflexivity.
Qed.

Lemma inputs_none zs : inputs zs None = map (fun z => (z, None)) zs.
Proof. induction zs as [|z zs IH]; cbn; [reflexivity|]. now rewrite IH. Qed.
Lemma inputs_some zs : forall us, inputs zs (Some us) = combine zs (map Some us).
Proof. induction zs as [|z zs IH]; intros [|u us]; cbn; try reflexivity. now rewrite IH. Qed.

Lemma smoothed_settled N ks : forall xs j, j < length xs -> j + N <= length xs \/ length xs + length ks <= N ->
  nth_error (smoothed N ks xs) j = nth_error xs j.
Proof.
  induction ks as [|t ks IH]; intros xs j hj h; cbn; [reflexivity|].
  destruct (stored_entries N t xs) as [h1 h2]. cbn in h. fold (smoothed N ks (stored N t xs)). rewrite IH; rewrite ?h1; [|lia|lia].
  rewrite h2. cbn zeta. destruct (j =? length xs) eqn:E1; bool_arith; [lia|].
  destruct ((N <=? length xs) && (length xs <? j + N)) eqn:E2; [|reflexivity].
  apply andb_true_iff in E2. destruct E2. bool_arith. lia.
Qed.
End L.

(** ** Whole runs.  From a fresh object (any x and P), for every list of measurements and every lag: the estimates are those
    of the Kalman pass, xSmooth and count have one entry per measurement, and entry j is the closed formula [entry]. *)
Theorem C49_run : forall (o : nops) (n m l : nat) (c : fls_cfg o n m l) N zs (s : fls o n m),
  fl_N c = Some N -> fl_xs s = Some [] -> fl_count s = 0 ->
  let (ks, ok) := pass c zs (fl_x s) (fl_P s) in
  exists s' xs, fls_run c zs s = (s', map (fun t => k_x t) ks, if ok then None else Some LinAlgError) /\
    fl_x s' = last (map (fun t => k_x t) ks) (fl_x s) /\ fl_P s' = last (map (fun t => k_P t) ks) (fl_P s) /\
    fl_count s' = length ks /\ fl_xs s' = Some xs /\ length xs = length ks /\ forall j, nth_error xs j = entry N ks j.
Proof.
  intros o n m l c N zs s hN hx hc. pose proof (run_smoothed zs hN hx hc) as h. destruct (pass c zs _ _) as [ks ok].
  destruct h as (s' & h1 & h2 & h3 & h4 & h5). exists s', (smoothed N ks []). split; [exact h1|].
  assert (he : is_entries N ([] ++ ks) (smoothed N ks [])).
  { apply smoothed_entries. split; [reflexivity|]. intros [|j]; reflexivity. }
  destruct he as [he1 he2]. auto 8.
Qed.
Print Assumptions C49_run.

(** ** smooth_batch gives the same lists as a loop over smooth, or the same exception; a control list that is too short
    raises IndexError. *)
Theorem C49_batch_is_loop : forall (o : nops) (n m l : nat) (c : fls_cfg o n m l) N zs us (s s0 : fls o n m),
  fl_N c = Some N -> fl_xs s0 = Some [] -> fl_count s0 = 0 -> fl_x s0 = fl_x s -> fl_P s0 = fl_P s ->
  let zus := match us with None => map (fun z => (z, None)) zs | Some us => combine zs (map Some us) end in
  match fls_run c zus s0 with
  | (s', hs, None) =>
      match us with
      | Some us' => length us' < length zs -> fls_batch c zs N us s = Err IndexError
      | None => True
      end /\
      (match us with Some us' => length zs <= length us' | None => True end ->
       exists xs, fl_xs s' = Some xs /\ fls_batch c zs N us s = Ok (xs, hs))
  | (_, _, Some e) => e = LinAlgError /\ fls_batch c zs N us s = Err LinAlgError
  end.
Proof.
  intros o n m l c N zs us s s0 hN hx hc hX hP. cbn zeta.
  assert (e : match us with None => map (fun z => (z, None)) zs | Some us => combine zs (map Some us) end = inputs zs us)
    by (destruct us; [rewrite inputs_some|rewrite inputs_none]; reflexivity).
  rewrite e. pose proof (run_smoothed (inputs zs us) hN hx hc) as h. rewrite hX, hP in h.
  pose proof (@batch_smoothed o n m l c N us zs (fl_x s) (fl_P s) [] [] [] eq_refl eq_refl) as hb. cbn zeta in hb. cbn [length] in hb.
  replace (option_map (skipn 0) us) with us in hb by (destruct us; reflexivity).
  destruct (pass c _ _ _) as [ks ok]. destruct h as (s' & h1 & h2 & _). rewrite h1. unfold fls_batch.
  cbn [app] in hb. rewrite hb. destruct ok; [|auto].
  assert (hl : length (inputs zs us) = match us with None => length zs | Some us => min (length zs) (length us) end)
    by (rewrite <- e; destruct us; [rewrite combine_length|]; rewrite map_length; reflexivity).
  rewrite hl. split.
  - destruct us as [us|]; [|exact I]. intros h. destruct (Nat.leb_spec (length zs) (min (length zs) (length us))); [lia|reflexivity].
  - intros h. exists (smoothed N ks []). split; [exact h2|].
    destruct us as [us|]; [|now rewrite Nat.leb_refl]. destruct (Nat.leb_spec (length zs) (min (length zs) (length us))); [reflexivity|lia].
Qed.
Print Assumptions C49_batch_is_loop.

(** ** Entries older than the lag are never changed again, and nothing is smoothed before step N. *)
Theorem C49_settled : forall (o : nops) (n m l : nat) (c : fls_cfg o n m l) N zs (s : fls o n m) xs,
  fl_N c = Some N -> fl_xs s = Some xs -> fl_count s = length xs ->
  exists ys, fl_xs (fst (fst (fls_run c zs s))) = Some ys /\
  forall j, j < length xs -> j + N <= length xs \/ length xs + length zs <= N -> nth_error ys j = nth_error xs j.
Proof.
  intros o n m l c N zs s xs hN hx hc. pose proof (run_smoothed zs hN hx hc) as h.
  assert (hl : forall zs x P, length (fst (pass c zs x P)) <= length zs).
  { clear. induction zs as [|[z u] zs IH]; intros x P; cbn; [lia|]. destruct (cyc c x P z u) as [t|]; cbn; [|lia].
    specialize (IH (k_x t) (k_P t)). destruct (pass _ _ _ _); cbn in *; lia. }
  specialize (hl zs (fl_x s) (fl_P s)). destruct (pass c zs _ _) as [ks ok]. cbn in hl.
  destruct h as (s' & h1 & h2 & _). rewrite h1. exists (smoothed N ks xs). split; [exact h2|].
  intros j hj h. apply smoothed_settled; [exact hj|]. lia.
Qed.
Print Assumptions C49_settled.

(** ** The first entry is never smoothed: it stays the filter estimate after the first measurement.  With lag 0 every entry
    is the prediction, not the estimate. *)
Theorem C49_first_entry : forall (o : nops) (n m l : nat) (c : fls_cfg o n m l) N zs (s : fls o n m) s' hs e,
  fl_N c = Some (S N) -> fl_xs s = Some [] -> fl_count s = 0 -> fls_run c zs s = (s', hs, e) ->
  exists ys, fl_xs s' = Some ys /\ hd_error ys = hd_error hs.
Proof.
  intros o n m l c N zs s s' hs e hN hx hc hr. pose proof (@C49_run o n m l c (S N) zs s hN hx hc) as h.
  destruct (pass c zs _ _) as [ks ok]. destruct h as (s1 & xs & h1 & _ & _ & _ & h2 & h3 & h4).
  rewrite hr in h1. injection h1 as -> -> ->. exists xs. split; [exact h2|].
  specialize (h4 0). destruct xs, ks; try discriminate; [reflexivity|]. cbn [nth_error] in h4. cbn. rewrite h4. unfold entry. cbn [nth_error].
  replace (min (0 + S N) (length (k :: ks)) - max (S N) 0)%nat with 0 by lia. reflexivity.
Qed.
Print Assumptions C49_first_entry.

Theorem C49_lag_zero : forall (o : nops) (n m l : nat) (c : fls_cfg o n m l) zs (s : fls o n m),
  fl_N c = Some 0 -> fl_xs s = Some [] -> fl_count s = 0 ->
  fl_xs (fst (fst (fls_run c zs s))) = Some (map (fun t => k_pre t) (fst (pass c zs (fl_x s) (fl_P s)))).
Proof.
  intros o n m l c zs s hN hx hc. pose proof (@C49_run o n m l c 0 zs s hN hx hc) as h.
  destruct (pass c zs _ _) as [ks ok]. destruct h as (s1 & xs & h1 & _ & _ & _ & h2 & h3 & h4). rewrite h1. cbn [fst]. rewrite h2. f_equal.
  apply nth_ext with (d := fl_x s) (d' := fl_x s); [rewrite map_length; exact h3|].
  intros j hj. specialize (h4 j). rewrite (nth_error_nth' _ (fl_x s)) in h4 by exact hj. unfold entry in h4.
  destruct (nth_error ks j) as [t|] eqn:E; [|discriminate].
  replace (min (j + 0) (length ks) - max 0 j)%nat with 0 in h4 by lia. cbn in h4. injection h4 as h4. rewrite h4.
  symmetry. apply nth_error_nth. now apply map_nth_error.
Qed.
Print Assumptions C49_lag_zero.

(** ** A call that raises leaves x, P and count; an object made without a lag raises AttributeError (its xSmooth does not
    exist) on every measurement whose innovation covariance is invertible. *)
Theorem C49_raises : forall (o : nops) (n m l : nat) (c : fls_cfg o n m l) z u (s : fls o n m) s' e,
  fls_smooth c z u s = (s', Some e) ->
  fl_x s' = fl_x s /\ fl_P s' = fl_P s /\ fl_count s' = fl_count s /\
  match e with
  | LinAlgError => fl_xs s' = fl_xs s
  | AttributeError => fl_xs s = None
  | TypeError => fl_N c = None /\ fl_xs s <> None
  | _ => False
  end.
Proof.
  intros o n m l c z u s s' e. unfold fls_smooth. destruct (fl_inv c _); [|intros [= <- <-]; cbn; auto].
  destruct (fl_xs s) as [xs|] eqn:E; [|intros [= <- <-]; cbn; auto].
  destruct (fl_N c); [discriminate|]. intros [= <- <-]. cbn. repeat split; auto. discriminate.
Qed.
Print Assumptions C49_raises.

Theorem C49_no_lag : forall (o : nops) (n m l : nat) (c : fls_cfg o n m l) z u N (s : fls o n m),
  fl_xs s = fl_xs (fls_init o n m N) -> N = None ->
  snd (fls_smooth c z u s) = Some AttributeError \/ snd (fls_smooth c z u s) = Some LinAlgError.
Proof.
  intros o n m l c z u N s h ->. unfold fls_smooth. rewrite h. destruct (fl_inv c _); auto.
Qed.
Print Assumptions C49_no_lag.
