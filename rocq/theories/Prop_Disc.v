(** * Process noise matrices: C41, C42 (exact arithmetic over any real field). *)
From mathcomp Require Import all_ssreflect all_algebra.
From Verif Require Import Ops Exact Spec ZmodTac FieldTac LinAlg Model_KF Model_Common Proof_Common Prop_Kin Proof_Disc Proof_Disc2.
Set Implicit Arguments.
Unset Strict Implicit.
Unset Printing Implicit Defensive.
Import Order.TTheory GRing.Theory Num.Theory.
Local Open Scope ring_scope.

(** [idx b block_size (dim-1) d r]: position of derivative r of coordinate d. *)
Theorem C41_discrete_white_noise : forall (F : realFieldType) (fsqrt fexp flog : F -> F) (order block_size : nat) (dt var : F) (b : bool),
  (1 <= order <= 3)%N ->
  exists Q : 'M[F]_(order.+1 * block_size),
  @q_discrete_white_noise (exactO fsqrt fexp flog) order.+1 dt var block_size b = Ok Q /\
  [/\ forall d d' r r', (d < block_size)%N -> (d' < block_size)%N -> (r <= order)%N -> (r' <= order)%N ->
        mx_get Q (idx b block_size order d r) (idx b block_size order d' r') =
        if d == d' then var * (gain order.+1 dt r * gain order.+1 dt r') else 0,
      Q^T = Q & 0 <= var -> psd Q].
Proof.
move=> F f1 f2 f3 order bs dt var b ho.
pose T : 'M[F]_(order.+1) := np_array (o := exactO f1 f2 f3) order.+1 order.+1 (@q_disc_table (exactO f1 f2 f3) order.+1 dt).
pose g : 'cV[F]_(order.+1) := \col_r gain order.+1 dt r.
have eT : T = g *m g^T by apply/matrixP => i j; rewrite disc_table // !mxE big_ord1 !mxE.
exists (var *: blk b bs T); split.
  rewrite /q_discrete_white_noise.
  have -> : negb (Nat.eqb order.+1 2 || Nat.eqb order.+1 3 || Nat.eqb order.+1 4) = false by case: order ho {T g eT} => [|[|[|[|]]]].
  by congr (Ok (_ *: _)); exact: layout_blk.
split.
- move=> d d' r r' hd hd' hr hr'; rewrite mx_getZ blk_get //; case: eqP => _; last by rewrite mulr0.
  have h : (r < order.+1)%N by []. have h' : (r' < order.+1)%N by [].
  by rewrite (mx_getP _ h h') eT mxE big_ord1 !mxE.
- by rewrite trmxZ blkT eT trmxM trmxK.
- by move=> hv; apply: psdZ => //; apply: blk_psd; rewrite eT; exact: psd_gram.
Qed.
Print Assumptions C41_discrete_white_noise.

(** Any other dim is a ValueError; so is it for the continuous model. *)
Theorem C41_other_dims : forall (o : nops) (dim block_size : nat) (dt var : sc o) (b : bool),
  ~ (dim = 2 \/ dim = 3 \/ dim = 4)%N ->
  q_discrete_white_noise dim dt var block_size b = Err ValueError /\
  q_continuous_white_noise dim dt var block_size b = Err ValueError.
Proof.
move=> o dim bs dt var b h; rewrite /q_discrete_white_noise /q_continuous_white_noise !eqbE.
by case: eqP => [e|_]; [case: h; left|case: eqP => [e|_]; [case: h; right; left|case: eqP => [e|_]; [case: h; right; right|]]].
Qed.
Print Assumptions C41_other_dims.

(** The gain is the effect of a unit top-derivative step, as kinematic_state_transition sees it:
    its last column (dims 3 and 4); for dim 2 the acceleration column of the order-2 matrix. *)
Theorem C41_gain_is_transition_column : forall (F : realFieldType) (fsqrt fexp flog : F -> F) (dim : nat) (dt : F) (r : 'I_((maxn 2 dim.-1).+1)),
  (kst (o := exactO fsqrt fexp flog) (maxn 2 dim.-1) dt : 'M[F]_((maxn 2 dim.-1).+1)) r ord_max = gain dim dt r.
Proof. by move=> F f1 f2 f3 dim dt r; rewrite kstE /= -ltnS ltn_ord. Qed.
Print Assumptions C41_gain_is_transition_column.

(** ** C42 *)

Theorem C42_continuous_white_noise : forall (F : realFieldType) (fsqrt fexp flog : F -> F) (order block_size : nat) (dt sd : F) (b : bool),
  (1 <= order <= 3)%N ->
  exists Q : 'M[F]_(order.+1 * block_size),
  @q_continuous_white_noise (exactO fsqrt fexp flog) order.+1 dt sd block_size b = Ok Q /\
  [/\ forall d d' r r', (d < block_size)%N -> (d' < block_size)%N -> (r <= order)%N -> (r' <= order)%N ->
        mx_get Q (idx b block_size order d r) (idx b block_size order d' r') = if d == d' then sd * qc order dt r r' else 0,
      Q^T = Q & 0 <= sd -> 0 <= dt -> psd Q].
Proof.
move=> F f1 f2 f3 order bs dt sd b ho.
pose T : 'M[F]_(order.+1) := np_array (o := exactO f1 f2 f3) order.+1 order.+1 (@q_cont_table (exactO f1 f2 f3) order.+1 dt).
have eT i j : T i j = qc order dt i j by exact: cont_table.
exists (sd *: blk b bs T); split.
  rewrite /q_continuous_white_noise.
  have -> : negb (Nat.eqb order.+1 2 || Nat.eqb order.+1 3 || Nat.eqb order.+1 4) = false by case: order ho {T eT} => [|[|[|[|]]]].
  by congr (Ok (_ *: _)); exact: layout_blk.
split.
- move=> d d' r r' hd hd' hr hr'; rewrite mx_getZ blk_get //; case: eqP => _; last by rewrite mulr0.
  have h : (r < order.+1)%N by []. have h' : (r' < order.+1)%N by [].
  by rewrite (mx_getP _ h h') eT.
- rewrite trmxZ blkT; congr (_ *: blk _ _ _); apply/matrixP => i j; rewrite mxE !eT /qc.
  by rewrite addnC [(_ `! * _ `!)%N]mulnC.
- by move=> hs hd; apply: psdZ => //; apply: blk_psd; exact: cont_psd.
Qed.
Print Assumptions C42_continuous_white_noise.

(** Q(s + t) = F(t) Q(s) F(t)^T + Q(t), with F(t) the transition matrix that kinematic_kf builds
    for the same layout. *)
Theorem C42_composition : forall (F : realFieldType) (fsqrt fexp flog : F -> F) (order block_size dim_z l : nat) (s t sd : F) (b : bool)
    (k : kf (exactO fsqrt fexp flog) (order.+1 * block_size) dim_z l) (Qs Qt Qst : 'M[F]_(order.+1 * block_size)),
  (1 <= order <= 3)%N ->
  let q dt := @q_continuous_white_noise (exactO fsqrt fexp flog) order.+1 dt sd block_size b in
  q s = Ok Qs -> q t = Ok Qt -> q (s + t) = Ok Qst ->
  let Ft : 'M[F]_(order.+1 * block_size) := kf_F (@kinematic_kf (exactO fsqrt fexp flog) block_size order dim_z l t b k) in
  Qst = Ft *m Qs *m Ft^T + Qt.
Proof.
move=> F f1 f2 f3 order bs dim_z l s t sd b k Qs Qt Qst ho q.
have E dt Q : q dt = Ok Q -> Q = sd *: blk b bs (np_array (o := exactO f1 f2 f3) order.+1 order.+1 (@q_cont_table (exactO f1 f2 f3) order.+1 dt)).
  rewrite /q /q_continuous_white_noise.
  have -> : negb (Nat.eqb order.+1 2 || Nat.eqb order.+1 3 || Nat.eqb order.+1 4) = false by case: order ho {Qs Qt Qst k q Q} => [|[|[|[|]]]].
  by move=> [<-]; congr (_ *: _); exact: layout_blk.
move=> /E -> /E -> /E -> Ft; rewrite /Ft kin_F_blk cont_compose //.
have C := @kst (exactO f1 f2 f3) order t.
move: (kst _ _) (np_array _ _ _) (np_array _ _ _) => A B D.
by rewrite blkT scalemxAr' scalemxAl' !blkM -scalerDr blkD.
Qed.
Print Assumptions C42_composition.

Section Pred.
Variables (F : realFieldType) (f1 f2 f3 : F -> F).
Notation O := (exactO f1 f2 f3).
Lemma pred_fields n m l (k : kf O n m l) (Q : 'M[F]_n) :
  let k' := kf_predict None None None (Some (@Mat O n Q)) k in
  [/\ kf_x k' = (kf_F k : 'M[F]_n) *m kf_x k,
     kf_P k' = kf_alpha_sq k *: ((kf_F k : 'M[F]_n) *m kf_P k *m (kf_F k : 'M[F]_n)^T) + Q & kf_alpha_sq k' = kf_alpha_sq k].
Proof. by case: k => ? ? ? [B|]. Qed.
Lemma kin_fields dim order m l (dt : F) b (k : kf O (order.+1 * dim) m l) :
  let k' := @kinematic_kf O dim order m l dt b k in
  [/\ kf_x k' = kf_x k, kf_P k' = kf_P k & kf_alpha_sq k' = kf_alpha_sq k].
Proof. by rewrite /kinematic_kf; case: b. Qed.
Lemma step_fields dim order m l (dt : F) b (k : kf O (order.+1 * dim) m l) (Q : 'M[F]_(order.+1 * dim)) :
  let k' := kf_predict None None None (Some (@Mat O (order.+1 * dim) Q)) (@kinematic_kf O dim order m l dt b k) in
  let T := blk b dim (@kst O order dt : 'M[F]_(order.+1)) in
  [/\ kf_x k' = T *m kf_x k, kf_P k' = kf_alpha_sq k *: (T *m kf_P k *m T^T) + Q & kf_alpha_sq k' = kf_alpha_sq k].
Proof.
have [e1 e2 e3] := kin_fields dt b k; have := kin_F_blk dt b k; move: (@kinematic_kf O dim order m l dt b k) e1 e2 e3 => k0 <- <- <- e.
have [h1 h2 h3] := pred_fields k0 Q.
by move=> k' T; rewrite /k' h1 h2 h3 e.
Qed.
Lemma two_steps n (B D P P0 P1 P3 Qs Qt : 'M[F]_n) (x x0 x1 x3 : 'cV[F]_n) :
  x1 = B *m x0 -> P1 = 1 *: (B *m P0 *m B^T) + Qt -> x0 = D *m x -> P0 = 1 *: (D *m P *m D^T) + Qs ->
  x3 = B *m D *m x -> P3 = 1 *: (B *m D *m P *m (B *m D)^T) + (B *m Qs *m B^T + Qt) -> x1 = x3 /\ P1 = P3.
Proof.
move=> -> -> -> -> -> ->; rewrite !scale1r !mulmxA; split=> //.
by rewrite mulmxDr mulmxDl !trmxM !mulmxA addrA.
Qed.
End Pred.

(** So predicting over s and then over t is predicting over s + t: same mean, same covariance. *)
Theorem C42_predict_in_two_steps : forall (F : realFieldType) (fsqrt fexp flog : F -> F) (order block_size dim_z l : nat) (s t sd : F) (b : bool)
    (k : kf (exactO fsqrt fexp flog) (order.+1 * block_size) dim_z l) (Qs Qt Qst : 'M[F]_(order.+1 * block_size)),
  (1 <= order <= 3)%N -> kf_alpha_sq k = 1 ->
  let O := exactO fsqrt fexp flog in
  let q dt := @q_continuous_white_noise O order.+1 dt sd block_size b in
  q s = Ok Qs -> q t = Ok Qt -> q (s + t) = Ok Qst ->
  let step dt Q k := kf_predict None None None (Some (@Mat O (order.+1 * block_size) Q)) (@kinematic_kf O block_size order dim_z l dt b k) in
  let k1 := step t Qt (step s Qs k) in let k2 := step (s + t) Qst k in
  kf_x k1 = kf_x k2 /\ kf_P k1 = kf_P k2.
Proof.
move=> F f1 f2 f3 order bs dim_z l s t sd b k Qs Qt Qst ho ha O q qs qt qst step.
have C := C42_composition k ho qs qt qst; rewrite kin_F_blk /= in C.
have TD := kstD f1 f2 f3 order t s.
move=> k1 k2.
have [x2 p2 a2] : [/\ _, _ & _] := step_fields s b k Qs.
have [x1 p1 _] : [/\ _, _ & _] := step_fields t b (step s Qs k) Qt.
have [x3 p3 _] : [/\ _, _ & _] := step_fields (s + t) b k Qst.
rewrite -/(step s Qs k) in x2 p2 a2; rewrite -/(step t Qt _) -/k1 in x1 p1; rewrite -/(step _ Qst k) -/k2 in x3 p3.
move: k1 k2 (step s Qs k) x1 p1 x2 p2 a2 x3 p3 => {step q qs qt qst} k1 k2 k0 x1 p1 x2 p2 a2 x3 p3.
rewrite a2 ha in p1; rewrite ha in p2 p3.
have e : blk b bs (@kst (exactO f1 f2 f3) order (s + t)) = blk b bs (@kst (exactO f1 f2 f3) order t) *m blk b bs (@kst (exactO f1 f2 f3) order s).
  by rewrite addrC -TD -blkM.
rewrite e in x3 p3; rewrite C in p3.
exact: (two_steps x1 p1 x2 p2 x3 p3).
Qed.
Print Assumptions C42_predict_in_two_steps.
