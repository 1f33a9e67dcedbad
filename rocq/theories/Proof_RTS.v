(** * Law-free facts about the RTS loops and batch_filter. *)
From Coq Require Import List Arith Lia Bool.
From Verif Require Import Ops Model_KF.
Import ListNotations.
Local Open Scope np_scope.

Section RTS.
Variable o : nops.
Variables n m l : nat.
Notation kf := (kf o n m l).
Notation rts := (rts o n).

Lemma nth_error_set_nth {A} (xs : list A) k v i : k < length xs ->
  nth_error (set_nth xs k v) i = if i =? k then Some v else nth_error xs i.
Proof.
  revert k i; induction xs as [|x xs IH]; intros [|k] [|i]; simpl; intros H; try lia; auto.
  apply IH; lia.
Qed.

Lemma nth_error_lt {A} (xs : list A) k x : nth_error xs k = Some x -> k < length xs.
Proof. intros H. apply nth_error_Some. congruence. Qed.

Lemma set_nth_length {A} (xs : list A) k v : length (set_nth xs k v) = length xs.
Proof. revert k; induction xs as [|x xs IH]; intros [|k]; simpl; auto. Qed.

(** What one pass computes, entry by entry. *)
Lemma rts_loop_entries idx linv Fs Qs c (r r' : rts) :
  rts_loop idx linv Fs Qs c r = Ok r' ->
  length (rts_x r') = length (rts_x r) /\ length (rts_P r') = length (rts_P r) /\
  (length (rts_K r) = length (rts_x r) -> length (rts_Pp r) = length (rts_x r) ->
   length (rts_K r') = length (rts_x r) /\ length (rts_Pp r') = length (rts_x r)) /\
  (forall k, c <= k -> nth_error (rts_x r') k = nth_error (rts_x r) k /\ nth_error (rts_P r') k = nth_error (rts_P r) k) /\
  (length (rts_K r) = length (rts_x r) -> length (rts_Pp r) = length (rts_x r) ->
   forall k, k < c -> exists F Q x x1 P P1 Pi,
     nth_error Fs (idx k) = Some F /\ nth_error Qs (idx k) = Some Q /\
     nth_error (rts_x r) k = Some x /\ nth_error (rts_P r) k = Some P /\
     nth_error (rts_x r') (S k) = Some x1 /\ nth_error (rts_P r') (S k) = Some P1 /\
     linv ((F @ P) @ F^T + Q) = Some Pi /\
     let Pp := (F @ P) @ F^T + Q in
     let K := (P @ F^T) @ Pi in
     nth_error (rts_x r') k = Some (x + K @ (x1 - F @ x)) /\
     nth_error (rts_P r') k = Some (P + (K @ (P1 - Pp)) @ K^T) /\
     nth_error (rts_K r') k = Some K /\ nth_error (rts_Pp r') k = Some Pp) /\
  (length (rts_K r) = length (rts_x r) -> length (rts_Pp r) = length (rts_x r) ->
   forall k, c <= k -> nth_error (rts_K r') k = nth_error (rts_K r) k /\ nth_error (rts_Pp r') k = nth_error (rts_Pp r) k).
Proof.
  revert r; induction c as [|c IH]; intros r; simpl.
  { intros [= <-]. repeat split; auto; intros; lia. }
  unfold rts_body.
  destruct (nth_error Fs (idx c)) as [F|] eqn:EF; [|discriminate].
  destruct (nth_error Qs (idx c)) as [Q|] eqn:EQ; [|discriminate].
  destruct (nth_error (rts_x r) c) as [x|] eqn:Ex; [|discriminate].
  destruct (nth_error (rts_x r) (c + 1)%nat) as [x1|] eqn:Ex1; [|discriminate].
  destruct (nth_error (rts_P r) c) as [P|] eqn:EP; [|discriminate].
  destruct (nth_error (rts_P r) (c + 1)%nat) as [P1|] eqn:EP1; [|discriminate].
  destruct (linv _) as [Pi|] eqn:Ei; [|discriminate]. cbn [rbind].
  intros H. destruct (IH _ H) as (h1 & h2 & h3 & h4 & h5 & h6). clear IH. cbn [rts_x rts_P rts_K rts_Pp] in *.
  pose proof (nth_error_lt _ _ _ Ex) as Lx. pose proof (nth_error_lt _ _ _ EP) as LP.
  rewrite !set_nth_length in *.
  split; [exact h1|]. split; [exact h2|]. split; [exact h3|]. split; [|split].
  - intros k Hk. destruct (h4 k ltac:(lia)) as [e1 e2].
    rewrite nth_error_set_nth in e1 by assumption. rewrite nth_error_set_nth in e2 by assumption.
    replace (k =? c) with false in e1, e2 by (symmetry; apply Nat.eqb_neq; lia). auto.
  - intros lK lPp k Hk. destruct (Nat.eq_dec k c) as [->|Hne].
    + exists F, Q, x, x1, P, P1, Pi.
      destruct (h4 c ltac:(lia)) as [e1 e2]. destruct (h4 (S c) ltac:(lia)) as [e3 e4].
      destruct (h6 lK lPp c ltac:(lia)) as [e5 e6].
      rewrite nth_error_set_nth in e1 by lia. rewrite nth_error_set_nth in e2 by lia. rewrite nth_error_set_nth in e3 by lia. rewrite nth_error_set_nth in e4 by lia. rewrite nth_error_set_nth in e5 by lia. rewrite nth_error_set_nth in e6 by lia.
      rewrite Nat.eqb_refl in e1, e2, e5, e6.
      replace (S c =? c) with false in e3, e4 by (symmetry; apply Nat.eqb_neq; lia).
      replace (c + 1)%nat with (S c) in * by lia. cbn zeta. repeat split; try congruence; [exact (eq_trans e3 Ex1)|exact (eq_trans e4 EP1)].
    + destruct (h5 lK lPp k ltac:(lia)) as (F' & Q' & y & y1 & P' & P1' & Pi' & g1 & g2 & g3 & g4 & g5).
      exists F', Q', y, y1, P', P1', Pi'.
      rewrite nth_error_set_nth in g3 by assumption. rewrite nth_error_set_nth in g4 by assumption.
      replace (k =? c) with false in g3, g4 by (symmetry; apply Nat.eqb_neq; lia). auto.
  - intros lK lPp k Hk. destruct (h6 lK lPp k ltac:(lia)) as [e1 e2].
    rewrite nth_error_set_nth in e1 by lia. rewrite nth_error_set_nth in e2 by lia.
    replace (k =? c) with false in e1, e2 by (symmetry; apply Nat.eqb_neq; lia). auto.
Qed.

(** The loop succeeds when every read is in range and every inverse exists. *)
Lemma rts_loop_ok idx linv Fs Qs c (r : rts) :
  c < length (rts_x r) -> c < length (rts_P r) ->
  (forall k P, k < c -> nth_error (rts_P r) k = Some P -> exists F Q Pi, nth_error Fs (idx k) = Some F /\
     nth_error Qs (idx k) = Some Q /\ linv ((F @ P) @ F^T + Q) = Some Pi) ->
  exists r', rts_loop idx linv Fs Qs c r = Ok r'.
Proof.
  revert r; induction c as [|c IH]; intros r Lx LP H; simpl; [eauto|].
  destruct (nth_error (rts_P r) c) as [P|] eqn:EP; [|apply nth_error_None in EP; lia].
  destruct (H c P ltac:(lia) EP) as (F & Q & Pi & EF & EQ & Ei).
  unfold rts_body. rewrite EF, EQ, EP.
  destruct (nth_error (rts_x r) c) as [x|] eqn:Ex; [|apply nth_error_None in Ex; lia].
  destruct (nth_error (rts_x r) (c + 1)%nat) as [x1|] eqn:Ex1; [|apply nth_error_None in Ex1; lia].
  destruct (nth_error (rts_P r) (c + 1)%nat) as [P1|] eqn:EP1; [|apply nth_error_None in EP1; lia].
  rewrite Ei. cbn [rbind]. apply IH; cbn [rts_x rts_P]; rewrite ?set_nth_length; try lia.
  intros k P' Hk. rewrite nth_error_set_nth by lia.
  replace (k =? c) with false by (symmetry; apply Nat.eqb_neq; lia). intros E. apply H; [lia|exact E].
Qed.

(** One predict/update epoch without control input. *)
Lemma epoch_step z F Q H R u (s : kf) xp Pp x' P' : kf_B s = None ->
  F @ kf_x s = xp ->
  mscale (kf_alpha_sq s) ((F @ kf_P s) @ F^T) + Q = Pp ->
  match z with
  | None => x' = xp /\ P' = Pp
  | Some z => exists SI, kf_inv s (H @ (Pp @ H^T) + R) = Some SI /\
                x' = xp + ((Pp @ H^T) @ SI) @ (z - H @ xp) /\
                P' = joseph Pp ((Pp @ H^T) @ SI) H R
  end ->
  exists s', batch_step false (mkRow z (Some F) (Some (Mat Q)) (Some H) (Some (Mat R)) None u) s =
    (s', Ok (mkBrow x' P' xp Pp)) /\
    kf_x s' = x' /\ kf_P s' = P' /\ kf_B s' = None /\ kf_alpha_sq s' = kf_alpha_sq s /\ kf_inv s' = kf_inv s.
Proof.
  intros HB Hx HP Hz. unfold batch_step. cbn [r_u r_B r_F r_Q r_z r_R r_H].
  destruct s. cbn in HB, Hx, HP, Hz. subst kf_B.
  unfold kf_predict, apply_control, B_or, opt_or, sm_or. cbn. rewrite Hx, HP.
  destruct z as [z|].
  - destruct Hz as (SI & HS & -> & ->). unfold kf_update. cbn.
    rewrite HS. eexists. split; [reflexivity|]. repeat split.
  - destruct Hz as (-> & ->). unfold kf_update. cbn. eexists. split; [reflexivity|]. repeat split.
Qed.

Lemma batch_loop_cons uf r rows (s s1 s2 : kf) b bs :
  batch_step uf r s = (s1, Ok b) -> batch_loop uf rows s1 = (s2, Ok bs) ->
  batch_loop uf (r :: rows) s = (s2, Ok (b :: bs)).
Proof. intros H1 H2. cbn [batch_loop]. rewrite H1, H2. reflexivity. Qed.
End RTS.
