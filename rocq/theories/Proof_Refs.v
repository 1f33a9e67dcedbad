(** * Lemmas about references. *)
From Coq Require Import List Arith Lia Bool.
From Verif Require Import Ops Model_KF Model_MM Spec_KF Model_Refs Spec_Refs.
Import ListNotations.

Lemma upd_length {V} (l : list V) i v : length (upd l i v) = length l.
Proof. revert i; induction l as [|x l IH]; intros [|i]; simpl; auto. Qed.
Lemma upd_same {V} (l : list V) i v d : i < length l -> nth i (upd l i v) d = v.
Proof. revert i; induction l as [|x l IH]; intros [|i] H; simpl in *; try lia; auto. apply IH; lia. Qed.
Lemma upd_other {V} (l : list V) i j v d : i <> j -> nth j (upd l i v) d = nth j l d.
Proof. revert i j; induction l as [|x l IH]; intros [|i] [|j] H; simpl; auto; try lia; apply IH; lia. Qed.
Lemma snoc_new {V} (l : list V) v d : nth (length l) (l ++ [v]) d = v.
Proof. rewrite app_nth2, Nat.sub_diag by lia. reflexivity. Qed.

Section KF.
Context {o : nops} {n m l : nat}.
Notation kf := (kf o n m l).
Notation kf_call := (kf_call o n m l).

Ltac cases :=
  repeat match goal with
    | |- context [match ?x with _ => _ end] => destruct x eqn:?; cbn in *
    | H : context [match ?x with _ => _ end] |- _ => destruct x eqn:?; cbn in *
    end; repeat match goal with E : (_, _) = (_, _) |- _ => injection E as <- <-; cbn in * end;
  try discriminate; auto.

Ltac frame c :=
  destruct c; cbn; intros HH; try discriminate; auto;
  unfold kf_update, kf_update_steadystate, kf_update_correlated, kf_update_sequential, kf_likelihood,
    kf_log_likelihood, kf_mahalanobis, kf_set_alpha in *; cbn in *; cases.
Lemma keep_x (c : kf_call) (r : kf) : eff_x c (snd (kf_step c r)) = Keep -> kf_x (fst (kf_step c r)) = kf_x r.
Proof. frame c. Qed.
Lemma keep_xprior (c : kf_call) (r : kf) : eff_xprior c (snd (kf_step c r)) = Keep ->
  kf_x_prior (fst (kf_step c r)) = kf_x_prior r.
Proof. frame c. Qed.
Lemma keep_xpost (c : kf_call) (r : kf) : eff_xpost c (snd (kf_step c r)) = Keep ->
  kf_x_post (fst (kf_step c r)) = kf_x_post r.
Proof. frame c. Qed.
Lemma keep_y (c : kf_call) (r : kf) : eff_y c (snd (kf_step c r)) = Keep -> kf_y (fst (kf_step c r)) = kf_y r.
Proof. frame c. Qed.
Lemma keep_K (c : kf_call) (r : kf) : eff_K c (snd (kf_step c r)) = Keep -> kf_K (fst (kf_step c r)) = kf_K r.
Proof. frame c. Qed.

Lemma read_eq (v : kf) (hx : list (M o n 1)) hy hK lx lp lq ly lK :
  nth lx hx (mzeros n 1) = kf_x v -> nth lp hx (mzeros n 1) = kf_x_prior v ->
  nth lq hx (mzeros n 1) = kf_x_post v -> nth ly hy (mzeros m 1) = kf_y v -> nth lK hK (mzeros n m) = kf_K v ->
  r_read (mkRK v hx hy hK lx lp lq ly lK) = v.
Proof. intros H1 H2 H3 H4 H5. unfold r_read; cbn. rewrite H1, H2, H3, H4, H5. destruct v; reflexivity. Qed.

(** The effects a call can have together. *)
Lemma effs (c : kf_call) e : eff_xprior c e = Write -> False.
Proof. destruct c; discriminate. Qed.
Lemma effs' (c : kf_call) e : eff_xpost c e = Write -> False.
Proof. destruct c; destruct e; discriminate. Qed.
Lemma effs2 (c : kf_call) e : eff_x c e = Write -> eff_xprior c e = Keep /\ eff_xpost c e = New.
Proof. destruct c; destruct e; cbn; try discriminate; auto; destruct z; discriminate. Qed.

Lemma put_len {V} e (h : list V) p v : p < length h -> snd (put e h p v) < length (fst (put e h p v)).
Proof. destruct e; cbn; intros; rewrite ?app_length, ?upd_length; cbn; lia. Qed.
Lemma put_mono {V} e (h : list V) p v : length h <= length (fst (put e h p v)).
Proof. destruct e; cbn; intros; rewrite ?app_length, ?upd_length; cbn; lia. Qed.
Lemma put_val {V} e (h : list V) p v d : p < length h -> (e = Keep -> nth p h d = v) ->
  nth (snd (put e h p v)) (fst (put e h p v)) d = v.
Proof. destruct e; cbn; intros; auto; [apply snoc_new|apply upd_same; auto]. Qed.
Lemma put_other {V} e (h : list V) p v q d : q < length h -> (e = Write -> p <> q) -> nth q (fst (put e h p v)) d = nth q h d.
Proof. destruct e; cbn; intros; auto; [apply app_nth1; auto|apply upd_other; auto]. Qed.
Lemma put_place {V} e (h : list V) p v : snd (put e h p v) = match e with New => length h | _ => p end.
Proof. destruct e; reflexivity. Qed.

Lemma step_refines (c : kf_call) (s : rk) : separated s ->
  separated (fst (r_step c s)) /\ r_read (fst (r_step c s)) = fst (kf_step c (r_read s)) /\
  snd (r_step c s) = snd (kf_step c (r_read s)).
Proof.
  intros (L1 & L2 & L3 & L4 & L5 & N1 & N2).
  pose proof (keep_x c (r_read s)) as K1. pose proof (keep_xprior c (r_read s)) as K2.
  pose proof (keep_xpost c (r_read s)) as K3. pose proof (keep_y c (r_read s)) as K4.
  pose proof (keep_K c (r_read s)) as K5.
  unfold r_step. destruct (kf_step c (r_read s)) as [v e]; cbn [fst snd] in *.
  pose proof (effs c e) as E1. pose proof (effs' c e) as E2. pose proof (effs2 c e) as E3.
  set (e1 := eff_x c e) in *. set (e2 := eff_xprior c e) in *. set (e3 := eff_xpost c e) in *.
  set (e4 := eff_y c e) in *. set (e5 := eff_K c e) in *. clearbody e1 e2 e3 e4 e5.
  pose proof (put_val e4 (r_hy s) (r_y s) (kf_y v) (mzeros m 1) L4 (fun h => eq_sym (K4 h))) as V4.
  pose proof (put_val e5 (r_hK s) (r_K s) (kf_K v) (mzeros n m) L5 (fun h => eq_sym (K5 h))) as V5.
  pose proof (put_val e1 (r_hx s) (r_x s) (kf_x v) (mzeros n 1) L1 (fun h => eq_sym (K1 h))) as V1.
  pose proof (put_len e4 (r_hy s) (r_y s) (kf_y v) L4) as P4.
  pose proof (put_len e5 (r_hK s) (r_K s) (kf_K v) L5) as P5.
  pose proof (put_len e1 (r_hx s) (r_x s) (kf_x v) L1) as P1.
  pose proof (put_mono e1 (r_hx s) (r_x s) (kf_x v)) as Q1.
  pose proof (put_place e1 (r_hx s) (r_x s) (kf_x v)) as W1.
  assert (O1 : forall q, q < length (r_hx s) -> q <> r_x s ->
            nth q (fst (put e1 (r_hx s) (r_x s) (kf_x v))) (mzeros n 1) = nth q (r_hx s) (mzeros n 1)).
  { intros q H1 H2. apply put_other; auto. }
  destruct (put e4 _ _ _) as [hy ly]; destruct (put e5 _ _ _) as [hK lK]; destruct (put e1 _ _ _) as [hx lx].
  cbn [fst snd] in *.
  assert (V2 : nth (r_xprior s) hx (mzeros n 1) = nth (r_xprior s) (r_hx s) (mzeros n 1)) by (apply O1; auto).
  assert (V3 : nth (r_xpost s) hx (mzeros n 1) = nth (r_xpost s) (r_hx s) (mzeros n 1)) by (apply O1; auto).
  assert (L2' : r_xprior s < length hx) by lia. assert (L3' : r_xpost s < length hx) by lia.
  pose proof (put_val e2 hx (r_xprior s) (kf_x_prior v) (mzeros n 1) L2' (fun h => eq_trans V2 (eq_sym (K2 h)))) as V2'.
  pose proof (put_len e2 hx (r_xprior s) (kf_x_prior v) L2') as P2.
  pose proof (put_mono e2 hx (r_xprior s) (kf_x_prior v)) as Q2.
  pose proof (put_place e2 hx (r_xprior s) (kf_x_prior v)) as W2.
  assert (O2 : forall q, q < length hx ->
            nth q (fst (put e2 hx (r_xprior s) (kf_x_prior v))) (mzeros n 1) = nth q hx (mzeros n 1)).
  { intros q H1. apply put_other; auto; intros H; destruct (E1 H). }
  destruct (put e2 _ _ _) as [hx2 lp]. cbn [fst snd] in *.
  assert (V3' : nth (r_xpost s) hx2 (mzeros n 1) = nth (r_xpost s) (r_hx s) (mzeros n 1)) by (rewrite O2; auto).
  assert (L3'' : r_xpost s < length hx2) by lia.
  pose proof (put_val e3 hx2 (r_xpost s) (kf_x_post v) (mzeros n 1) L3'' (fun h => eq_trans V3' (eq_sym (K3 h)))) as V3''.
  pose proof (put_len e3 hx2 (r_xpost s) (kf_x_post v) L3'') as P3.
  pose proof (put_mono e3 hx2 (r_xpost s) (kf_x_post v)) as Q3.
  pose proof (put_place e3 hx2 (r_xpost s) (kf_x_post v)) as W3.
  assert (O3 : forall q, q < length hx2 ->
            nth q (fst (put e3 hx2 (r_xpost s) (kf_x_post v))) (mzeros n 1) = nth q hx2 (mzeros n 1)).
  { intros q H1. apply put_other; auto; intros H; destruct (E2 H). }
  destruct (put e3 _ _ _) as [hx3 lq]. cbn [fst snd] in *.
  split; [|split; [|reflexivity]].
  - unfold separated; cbn. repeat split; try lia.
    + rewrite W1, W2. destruct e1, e2; cbn; try lia; intros H; subst; lia.
    + rewrite W1, W3. destruct e1, e3; cbn; try lia; intros H; subst; lia.
  - apply read_eq; auto.
    + rewrite O3, O2; auto; lia.
    + rewrite O3; auto; lia.
Qed.
End KF.

Section KF2.
Context {o : nops} {n m l : nat}.
Notation kf := (kf o n m l).
Notation kf_call := (kf_call o n m l).
Notation rk := (@rk o n m l).

Lemma init_separated (v : kf) : separated (r_init v).
Proof. repeat split; cbn; lia. Qed.
Lemma init_read (v : kf) : r_read (r_init v) = v.
Proof. destruct v; reflexivity. Qed.

Lemma read_set_hx (hx : list (M o n 1)) lx x (s : rk) :
  nth lx hx (mzeros n 1) = x -> nth (r_xprior s) hx (mzeros n 1) = nth (r_xprior s) (r_hx s) (mzeros n 1) ->
  nth (r_xpost s) hx (mzeros n 1) = nth (r_xpost s) (r_hx s) (mzeros n 1) ->
  r_read (set_hx hx lx s) = set_kf_x x (r_read s).
Proof. intros H1 H2 H3. unfold r_read; cbn. rewrite H1, H2, H3. reflexivity. Qed.

Lemma set_x_id (v : kf) : set_kf_x (kf_x v) v = v.
Proof. destruct v; reflexivity. Qed.

Lemma do_refines (a : r_event) (s : rk) : separated s -> polite [a] s ->
  separated (r_do a s) /\ r_read (r_do a s) = v_do a (r_read s).
Proof.
  intros Hs Hp. destruct a as [c|v|v|p v]; cbn [r_do v_do].
  - destruct (step_refines c s Hs) as (A & B & _). auto.
  - destruct Hs as (L1 & L2 & L3 & L4 & L5 & N1 & N2). cbn. split.
    + unfold separated; cbn. rewrite app_length; cbn. repeat split; auto; lia.
    + apply read_set_hx; [apply snoc_new|apply app_nth1; auto|apply app_nth1; auto].
  - destruct Hs as (L1 & L2 & L3 & L4 & L5 & N1 & N2). cbn. split.
    + unfold separated; cbn. rewrite upd_length. repeat split; auto.
    + apply read_set_hx; [apply upd_same; auto|apply upd_other; auto|apply upd_other; auto].
  - destruct Hs as (L1 & L2 & L3 & L4 & L5 & N1 & N2). destruct Hp as [(M1 & M2 & M3) _]. split.
    + unfold separated; cbn. rewrite upd_length. repeat split; auto.
    + erewrite read_set_hx; [|reflexivity|apply upd_other; auto|apply upd_other; auto].
      rewrite upd_other by auto. exact (set_x_id (r_read s)).
Qed.

Lemma run_refines (es : list r_event) (s : rk) : separated s -> polite es s ->
  separated (r_run es s) /\ r_read (r_run es s) = v_run es (r_read s).
Proof.
  revert s; induction es as [|a es IH]; intros s Hs Hp; [split; auto|].
  destruct Hp as [Ha Hp]. destruct (do_refines a s Hs (conj Ha I)) as [Hs' E].
  destruct (IH _ Hs' Hp) as [A B]. split; [exact A|]. cbn. rewrite <- E. exact B.
Qed.

(** A call that is not update_sequential only adds arrays. *)
Lemma nonseq_eff (c : kf_call) e : sequential c = false ->
  eff_x c e <> Write /\ eff_xprior c e <> Write /\ eff_xpost c e <> Write /\ eff_y c e <> Write /\ eff_K c e <> Write.
Proof.
  destruct c; try discriminate; intros _; repeat split; cbn; try discriminate;
    repeat match goal with |- context [match ?x with _ => _ end] => destruct x end; discriminate.
Qed.
Lemma put_keeps {V} e (h : list V) p v q d : e <> Write -> q < length h -> nth q (fst (put e h p v)) d = nth q h d.
Proof. intros; apply put_other; auto; intros; contradiction. Qed.

Definition extends {V} (h h' : list V) := exists t, h' = h ++ t.
Lemma put_extends {V} e (h : list V) p v : e <> Write -> extends h (fst (put e h p v)).
Proof. destruct e; intros; [exists []; rewrite app_nil_r|exists [v]|]; auto; contradiction. Qed.
Lemma extends_trans {V} (a b c : list V) : extends a b -> extends b c -> extends a c.
Proof. intros [t ->] [u ->]. exists (t ++ u). rewrite app_assoc; auto. Qed.

Lemma step_extends (c : kf_call) (s : rk) : sequential c = false ->
  extends (r_hx s) (r_hx (fst (r_step c s))) /\ extends (r_hy s) (r_hy (fst (r_step c s))) /\
  extends (r_hK s) (r_hK (fst (r_step c s))).
Proof.
  intros H. unfold r_step. destruct (kf_step c (r_read s)) as [v e].
  destruct (nonseq_eff c e H) as (H1 & H2 & H3 & H4 & H5).
  pose proof (put_extends _ (r_hy s) (r_y s) (kf_y v) H4) as A4.
  pose proof (put_extends _ (r_hK s) (r_K s) (kf_K v) H5) as A5.
  pose proof (put_extends _ (r_hx s) (r_x s) (kf_x v) H1) as A1.
  destruct (put (eff_y c e) _ _ _) as [hy ly]; destruct (put (eff_K c e) _ _ _) as [hK lK].
  destruct (put (eff_x c e) _ _ _) as [hx lx].
  pose proof (put_extends _ hx (r_xprior s) (kf_x_prior v) H2) as A2.
  destruct (put (eff_xprior c e) _ _ _) as [hx2 lp].
  pose proof (put_extends _ hx2 (r_xpost s) (kf_x_post v) H3) as A3.
  destruct (put (eff_xpost c e) _ _ _) as [hx3 lq]. cbn in *.
  split; [|auto]. eapply extends_trans; [exact A1|]. eapply extends_trans; [exact A2|exact A3].
Qed.

(** The place of x, and the other places, after a call. *)
Lemma step_place (c : kf_call) (s : rk) :
  r_x (fst (r_step c s)) = match eff_x c (snd (kf_step c (r_read s))) with New => length (r_hx s) | _ => r_x s end.
Proof.
  unfold r_step. destruct (kf_step c (r_read s)) as [v e].
  pose proof (put_place (eff_x c e) (r_hx s) (r_x s) (kf_x v)) as W.
  destruct (put (eff_y c e) _ _ _) as [hy ly]; destruct (put (eff_K c e) _ _ _) as [hK lK].
  destruct (put (eff_x c e) _ _ _) as [hx lx].
  destruct (put (eff_xprior c e) _ _ _) as [hx2 lp].
  destruct (put (eff_xpost c e) _ _ _) as [hx3 lq]. exact W.
Qed.
Lemma step_untouched (c : kf_call) (s : rk) q : q < length (r_hx s) -> q <> r_x s ->
  q < length (r_hx (fst (r_step c s))) /\
  nth q (r_hx (fst (r_step c s))) (mzeros n 1) = nth q (r_hx s) (mzeros n 1).
Proof.
  intros L N. unfold r_step. destruct (kf_step c (r_read s)) as [v e].
  assert (A1 : nth q (fst (put (eff_x c e) (r_hx s) (r_x s) (kf_x v))) (mzeros n 1) = nth q (r_hx s) (mzeros n 1))
    by (apply put_other; auto).
  pose proof (put_mono (eff_x c e) (r_hx s) (r_x s) (kf_x v)) as B1.
  destruct (put (eff_y c e) _ _ _) as [hy ly]; destruct (put (eff_K c e) _ _ _) as [hK lK].
  destruct (put (eff_x c e) _ _ _) as [hx lx]. cbn [fst snd] in *.
  assert (L1 : q < length hx) by lia.
  assert (A2 : nth q (fst (put (eff_xprior c e) hx (r_xprior s) (kf_x_prior v))) (mzeros n 1) = nth q hx (mzeros n 1)).
  { apply put_other; auto; intros H; destruct (effs c e H). }
  pose proof (put_mono (eff_xprior c e) hx (r_xprior s) (kf_x_prior v)) as B2.
  destruct (put (eff_xprior c e) _ _ _) as [hx2 lp]. cbn [fst snd] in *.
  assert (L2 : q < length hx2) by lia.
  assert (A3 : nth q (fst (put (eff_xpost c e) hx2 (r_xpost s) (kf_x_post v))) (mzeros n 1) = nth q hx2 (mzeros n 1)).
  { apply put_other; auto; intros H; destruct (effs' c e H). }
  pose proof (put_mono (eff_xpost c e) hx2 (r_xpost s) (kf_x_post v)) as B3.
  destruct (put (eff_xpost c e) _ _ _) as [hx3 lq]. cbn in *. split; [lia|congruence].
Qed.
Lemma run_untouched (cl : list kf_call) (s : rk) q : q < length (r_hx s) -> q <> r_x s ->
  nth q (r_hx (r_run (map RCall cl) s)) (mzeros n 1) = nth q (r_hx s) (mzeros n 1).
Proof.
  revert s; induction cl as [|c cl IH]; intros s L N; [reflexivity|]. cbn [map r_run fold_left r_do].
  destruct (step_untouched c s q L N) as [L' E]. rewrite <- E. apply IH; auto.
  rewrite step_place. destruct (eff_x _ _); auto; lia.
Qed.
Lemma new_x_eff (c : kf_call) e : new_x c e = true <-> eff_x c e = New.
Proof.
  unfold new_x, is_predict, eff_x. destruct c; cbn; split; try discriminate; auto;
    repeat match goal with |- context [match ?x with _ => _ end] => destruct x end; auto; discriminate.
Qed.
Lemma follows_ok (cl : list kf_call) (s : rk) : separated s ->
  nth (r_x s) (r_hx (r_run (map RCall cl) s)) (mzeros n 1) = follows cl (r_read s).
Proof.
  revert s; induction cl as [|c cl IH]; intros s Hs; [reflexivity|]. cbn [map r_run fold_left r_do follows].
  destruct (step_refines c s Hs) as (Hs' & E & _).
  pose proof (step_place c s) as W.
  pose proof (new_x_eff c (snd (kf_step c (r_read s)))) as NE.
  destruct (new_x c (snd (kf_step c (r_read s)))) eqn:Nx.
  - destruct NE as [NE _]. rewrite (NE eq_refl) in W.
    assert (L : r_x s < length (r_hx s)) by apply Hs.
    (* the caller's array is no longer the filter's *)
    change (nth (r_x s) (r_hx (r_run (map RCall cl) (fst (r_step c s)))) (mzeros n 1) = kf_x (r_read s)).
    clear E.
    assert (E : r_x s < length (r_hx (fst (r_step c s))) /\
      nth (r_x s) (r_hx (fst (r_step c s))) (mzeros n 1) = nth (r_x s) (r_hx s) (mzeros n 1)).
    { assert (Q : eff_x c (snd (kf_step c (r_read s))) = New) by (apply NE; reflexivity).
      revert Q. unfold r_step. destruct (kf_step c (r_read s)) as [v e]; cbn [snd]. intros Q. rewrite Q.
      cbn [put fst snd].
      destruct (put (eff_y c e) _ _ _) as [hy ly]; destruct (put (eff_K c e) _ _ _) as [hK lK].
      set (hx := r_hx s ++ [kf_x v]).
      assert (L1 : r_x s < length hx) by (unfold hx; rewrite app_length; lia).
      assert (A1 : nth (r_x s) hx (mzeros n 1) = nth (r_x s) (r_hx s) (mzeros n 1)) by (apply app_nth1; auto).
      assert (A2 : nth (r_x s) (fst (put (eff_xprior c e) hx (r_xprior s) (kf_x_prior v))) (mzeros n 1) = nth (r_x s) hx (mzeros n 1)).
      { apply put_other; auto; intros H; destruct (effs c e H). }
      pose proof (put_mono (eff_xprior c e) hx (r_xprior s) (kf_x_prior v)) as B2.
      destruct (put (eff_xprior c e) _ _ _) as [hx2 lp]. cbn [fst snd] in *.
      assert (L2 : r_x s < length hx2) by lia.
      assert (A3 : nth (r_x s) (fst (put (eff_xpost c e) hx2 (r_xpost s) (kf_x_post v))) (mzeros n 1) = nth (r_x s) hx2 (mzeros n 1)).
      { apply put_other; auto; intros H; destruct (effs' c e H). }
      pose proof (put_mono (eff_xpost c e) hx2 (r_xpost s) (kf_x_post v)) as B3.
      destruct (put (eff_xpost c e) _ _ _) as [hx3 lq]. cbn in *. split; [lia|congruence]. }
    destruct E as [L' E]. rewrite run_untouched; [|exact L'|rewrite W; lia]. rewrite E. reflexivity.
  - assert (W' : r_x (fst (r_step c s)) = r_x s).
    { rewrite W. destruct (eff_x _ _); auto. destruct NE as [_ NE]. discriminate (NE eq_refl). }
    rewrite <- W' at 1. rewrite <- E. apply IH; auto.
Qed.
End KF2.

(** ** Filters with one array *)
Section Cell.
Variables (St V C : Type) (A : cell St V C) (dflt : V).
Hypothesis get_set : forall v s, c_get A (c_set A v s) = v.
Hypothesis set_get : forall s, c_set A (c_get A s) s = s.
Hypothesis keeps : forall c s, c_eff A c s = Keep -> c_get A (c_step A c s) = c_get A s.
Notation run := (fold_left (fun s c => c_step A c s)).
Notation crun := (fold_left (fun s c => cs_step A dflt c s)).

Lemma cstep_ok c s : cs_x s < length (cs_h s) ->
  cs_x (cs_step A dflt c s) < length (cs_h (cs_step A dflt c s)) /\
  cs_read A dflt (cs_step A dflt c s) = c_step A c (cs_read A dflt s).
Proof.
  intros L. unfold cs_step. set (v := cs_read A dflt s).
  assert (Hv : c_get A v = nth (cs_x s) (cs_h s) dflt) by apply get_set.
  pose proof (put_len (c_eff A c v) (cs_h s) (cs_x s) (c_get A (c_step A c v)) L) as P.
  pose proof (put_val (c_eff A c v) (cs_h s) (cs_x s) (c_get A (c_step A c v)) dflt L) as Q.
  destruct (put _ _ _ _) as [h x]. cbn in *. split; [exact P|]. unfold cs_read at 1; cbn.
  rewrite Q; [apply set_get|]. intros E. rewrite (keeps _ _ E). symmetry; exact Hv.
Qed.
Lemma crun_ok cl s : cs_x s < length (cs_h s) ->
  cs_x (crun cl s) < length (cs_h (crun cl s)) /\ cs_read A dflt (crun cl s) = run cl (cs_read A dflt s).
Proof.
  revert s; induction cl as [|c cl IH]; intros s L; [auto|]. cbn.
  destruct (cstep_ok c s L) as [L' E]. destruct (IH _ L') as [L2 E2]. split; [exact L2|]. rewrite E2, E; reflexivity.
Qed.
Lemma cinit_read s : cs_read A dflt (cs_init A s) = s.
Proof. apply set_get. Qed.
Lemma collect_fst cl s : fst (cs_collect A dflt cl s) = crun cl s.
Proof.
  revert s; induction cl as [|c cl IH]; intros s; [reflexivity|]. cbn. specialize (IH (cs_step A dflt c s)).
  destruct (cs_collect A dflt cl _); exact IH.
Qed.
Lemma collect_snd cl s : length (snd (cs_collect A dflt cl s)) = length cl.
Proof.
  revert s; induction cl as [|c cl IH]; intros s; [reflexivity|]. cbn. specialize (IH (cs_step A dflt c s)).
  destruct (cs_collect A dflt cl _); cbn in *; congruence.
Qed.

(** All calls write: every reference is to the same array. *)
Lemma collect_write cl s : (forall c s', In c cl -> c_eff A c s' = Write) ->
  snd (cs_collect A dflt cl s) = repeat (cs_x s) (length cl) /\ cs_x (crun cl s) = cs_x s.
Proof.
  revert s; induction cl as [|c cl IH]; intros s H; [split; reflexivity|]. cbn.
  assert (X : cs_x (cs_step A dflt c s) = cs_x s).
  { unfold cs_step. rewrite (H c (cs_read A dflt s)) by (left; reflexivity). reflexivity. }
  destruct (IH (cs_step A dflt c s)) as [I1 I2].
  { intros c' s' I. apply H; right; exact I. }
  destruct (cs_collect A dflt cl _); cbn in *. rewrite I1, I2, X. auto.
Qed.
Lemma kept_write cl s : cs_x s < length (cs_h s) -> (forall c s', In c cl -> c_eff A c s' = Write) ->
  cs_kept A dflt cl s = repeat (c_get A (run cl (cs_read A dflt s))) (length cl).
Proof.
  intros L H. unfold cs_kept. pose proof (collect_fst cl s) as F. destruct (collect_write cl s H) as [W X].
  destruct (cs_collect A dflt cl s) as [s' r]; cbn in F, W; subst s' r.
  destruct (crun_ok cl s L) as [_ E]. rewrite <- E. unfold cs_read. rewrite get_set, X.
  induction (length cl) as [|k IH]; cbn; [reflexivity|f_equal; exact IH].
Qed.
(** All calls bind a new array: every reference keeps what it showed. *)
Section New.
Variable Inv : St -> Prop.
Hypothesis inv_step : forall c s, Inv s -> Inv (c_step A c s).
Hypothesis inv_new : forall c s, Inv s -> c_eff A c s = New.
Lemma crun_new cl s : cs_x s < length (cs_h s) -> Inv (cs_read A dflt s) -> forall q, q < length (cs_h s) ->
  nth q (cs_h (crun cl s)) dflt = nth q (cs_h s) dflt.
Proof.
  revert s; induction cl as [|c cl IH]; intros s L HI q Lq; [reflexivity|]. cbn.
  destruct (cstep_ok c s L) as [L' E].
  assert (G : cs_h (cs_step A dflt c s) = cs_h s ++ [c_get A (c_step A c (cs_read A dflt s))]).
  { unfold cs_step. rewrite inv_new by auto. reflexivity. }
  rewrite IH; auto.
  - rewrite G. apply app_nth1; auto.
  - rewrite E; auto.
  - rewrite G, app_length; lia.
Qed.
Lemma kept_new cl s : cs_x s < length (cs_h s) -> Inv (cs_read A dflt s) ->
  cs_kept A dflt cl s = map (c_get A) (trace (c_step A) cl (cs_read A dflt s)).
Proof.
  revert s; induction cl as [|c cl IH]; intros s L HI; [reflexivity|].
  destruct (cstep_ok c s L) as [L' E].
  assert (HI' : Inv (cs_read A dflt (cs_step A dflt c s))) by (rewrite E; auto).
  specialize (IH _ L' HI'). pose proof (collect_fst cl (cs_step A dflt c s)) as F.
  unfold cs_kept in *. cbn. destruct (cs_collect A dflt cl _) as [s' r]. cbn in *. rewrite IH, E. f_equal.
  rewrite F, crun_new by auto.
  rewrite <- (get_set (nth (cs_x (cs_step A dflt c s)) (cs_h (cs_step A dflt c s)) dflt) (cs_v (cs_step A dflt c s))).
  change (c_get A (cs_read A dflt (cs_step A dflt c s)) = c_get A (c_step A c (cs_read A dflt s))). rewrite E; reflexivity.
Qed.
End New.

(** An array the filter has left is not touched again. *)
Lemma crun_left cl s q : q < length (cs_h s) -> q <> cs_x s -> nth q (cs_h (crun cl s)) dflt = nth q (cs_h s) dflt.
Proof.
  revert s; induction cl as [|c cl IH]; intros s L N; [reflexivity|]. cbn.
  unfold cs_step at 2. set (e := c_eff A c _). set (v := c_get A _).
  pose proof (put_place e (cs_h s) (cs_x s) v) as W. pose proof (put_mono e (cs_h s) (cs_x s) v) as Mn.
  assert (O : nth q (fst (put e (cs_h s) (cs_x s) v)) dflt = nth q (cs_h s) dflt) by (apply put_other; auto).
  destruct (put e _ _ _) as [h x]; cbn in *. rewrite IH; cbn; auto; try lia. rewrite W; destruct e; auto; lia.
Qed.
Lemma collect_app cl1 cl2 s : cs_collect A dflt (cl1 ++ cl2) s =
  let (s1, r1) := cs_collect A dflt cl1 s in let (s2, r2) := cs_collect A dflt cl2 s1 in (s2, r1 ++ r2).
Proof.
  revert s; induction cl1 as [|c cl IH]; intros s; cbn; [destruct (cs_collect A dflt cl2 s); reflexivity|].
  rewrite IH. destruct (cs_collect A dflt cl _) as [s1 r1]. destruct (cs_collect A dflt cl2 s1); reflexivity.
Qed.
Lemma kept_app_new cl1 c cl2 s : cs_x s < length (cs_h s) ->
  (forall c s', In c cl1 -> c_eff A c s' = Write) -> (forall s', c_eff A c s' = New) ->
  cs_kept A dflt (cl1 ++ c :: cl2) s = cs_kept A dflt cl1 s ++ cs_kept A dflt (c :: cl2) (crun cl1 s).
Proof.
  intros L Hw Hn. destruct (collect_write cl1 s Hw) as [W X]. destruct (crun_ok cl1 s L) as [L' _].
  unfold cs_kept. rewrite collect_app. pose proof (collect_fst cl1 s) as F.
  destruct (cs_collect A dflt cl1 s) as [s1 r1]. cbn [fst snd] in F, W; subst s1 r1.
  pose proof (collect_fst (c :: cl2) (crun cl1 s)) as F2.
  destruct (cs_collect A dflt (c :: cl2) _) as [s2 r2]. cbn [fst] in F2; subst s2. rewrite map_app. f_equal.
  assert (Q : nth (cs_x (crun cl1 s)) (cs_h (crun (c :: cl2) (crun cl1 s))) dflt = nth (cs_x (crun cl1 s)) (cs_h (crun cl1 s)) dflt).
  { cbn [fold_left]. set (s1 := crun cl1 s) in *. rewrite crun_left.
    - unfold cs_step. rewrite Hn. cbn. apply app_nth1; auto.
    - unfold cs_step. rewrite Hn. cbn. rewrite app_length; lia.
    - unfold cs_step. rewrite Hn. cbn. lia. }
  rewrite X in Q. assert (Map : forall (f g : nat -> V) k j, f j = g j -> map f (repeat j k) = map g (repeat j k)).
  { intros f g k j Hj. induction k as [|k IH]; cbn; congruence. }
  apply Map. exact Q.
Qed.
End Cell.

(** ** Two banks *)
Section Banks.
Context {o : nops} {n m l : nat} {T : Type} (D : filt o n m l T) {N : nat}.
Notation banks := (banks o n m T N).
Lemma with_p_id (s : mmae o n m T N) : with_p (a_p s) s = s.
Proof. destruct s; reflexivity. Qed.
Lemma banks_ok (cl : list (bool * mmae_call o n m l)) (b : banks) :
  b_p1 b < length (b_h b) -> b_p2 b < length (b_h b) -> b_p1 b <> b_p2 b ->
  b_read1 (b_run D cl b) = fold_left (fun s c => fst (mmae_step D c s)) (one false cl) (b_read1 b) /\
  b_read2 (b_run D cl b) = fold_left (fun s c => fst (mmae_step D c s)) (one true cl) (b_read2 b).
Proof.
  revert b; induction cl as [|[i c] cl IH]; intros b L1 L2 Hn; [split; reflexivity|].
  cbn [b_run fold_left fst snd]. 
  assert (Hb : forall b' : banks, b_p1 b' = b_p1 b -> b_p2 b' = b_p2 b -> length (b_h b') = length (b_h b) ->
     b_read1 (b_run D cl b') = fold_left (fun s c => fst (mmae_step D c s)) (one false cl) (b_read1 b') /\
     b_read2 (b_run D cl b') = fold_left (fun s c => fst (mmae_step D c s)) (one true cl) (b_read2 b')).
  { intros b' E1 E2 E3. apply IH; rewrite ?E1, ?E2, ?E3; auto. }
  destruct i; cbn [one List.filter Bool.eqb fst map snd fold_left].
  - specialize (Hb (b_step D true c b)). cbn in Hb. rewrite upd_length in Hb.
    destruct (Hb eq_refl eq_refl eq_refl) as [B1 B2]. split.
    + etransitivity; [exact B1|]. f_equal. unfold b_read1; cbn. rewrite upd_other by auto. reflexivity.
    + etransitivity; [exact B2|]. cbn. f_equal. unfold b_read2 at 1; cbn. rewrite upd_same by auto. apply with_p_id.
  - specialize (Hb (b_step D false c b)). cbn in Hb. rewrite upd_length in Hb.
    destruct (Hb eq_refl eq_refl eq_refl) as [B1 B2]. split.
    + etransitivity; [exact B1|]. cbn. f_equal. unfold b_read1 at 1; cbn. rewrite upd_same by auto. apply with_p_id.
    + etransitivity; [exact B2|]. f_equal. unfold b_read2; cbn. rewrite upd_other by auto. reflexivity.
Qed.
End Banks.
