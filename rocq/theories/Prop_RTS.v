(** * The fixed-interval smoother: C18, C19. *)
From Coq Require Import Lia.
From mathcomp Require Import all_ssreflect all_algebra.
From Verif Require Import Ops Exact Spec ZmodTac LinAlg Model_KF Spec_KF_exact Spec_RTS Proof_RTS Proof_RTS_exact.
Set Implicit Arguments.
Unset Strict Implicit.
Unset Printing Implicit Defensive.
Import Order.TTheory GRing.Theory Num.Theory.
Local Open Scope ring_scope.

Lemma profile (F : realFieldType) (n m : nat) (e : epoch F n m) (es : seq (epoch F n m)) (s : 'cV[F]_n * 'M[F]_n) :
  psd s.2 -> List.Forall (@good_epoch F n m) (e :: es) ->
  let X := map fst (sm (post e s) es) in let Ps := map snd (sm (post e s) es) in
  exists c, forall k, (k < size (e :: es))%N ->
  [/\ pd (nth 0 Ps k),
      forall vs, size vs = size (e :: es) ->
        c + qf (invmx (nth 0 Ps k)) (nth 0 vs k - nth 0 X k) <= traj_cost s.1 s.2 (e :: es) vs &
      forall u, exists vs, [/\ size vs = size (e :: es), nth 0 vs k = u &
        traj_cost s.1 s.2 (e :: es) vs = c + qf (invmx (nth 0 Ps k)) (u - nth 0 X k)]].
Proof.
move=> pP gs X Ps; have [g ges] : good_epoch e /\ List.Forall (@good_epoch F n m) es by inversion gs.
have pP' := post_pd g pP.
have [c hc] := sm_core ges pP'; have [c0 hc0] := post_cost g pP.
have tc w ws : traj_cost s.1 s.2 (e :: es) (w :: ws)
   = c0 + (qf (invmx (post e s).2) (w - (post e s).1) + links w es ws).
  by rewrite /= -PpredE hc0 addrA.
exists (c0 + c) => k hk; have [pPk lo at_] := hc k hk.
have eX : nth 0 X k = (nth (0, 0) (sm (post e s) es) k).1 by rewrite (nth_map (0, 0)) // sm_size.
have eP : nth 0 Ps k = (nth (0, 0) (sm (post e s) es) k).2 by rewrite (nth_map (0, 0)) // sm_size.
rewrite eX eP; split=> //.
  move=> [|w ws] // [sz]; rewrite tc -addrA ler_add2l; exact: lo.
move=> u; have [w [ws [sz nk eq]]] := at_ u; exists (w :: ws); split=> //; first by rewrite /= sz.
by rewrite tc eq addrA.
Qed.

Lemma bpairs (F : realFieldType) (f1 f2 f3 : F -> F) n (bs : seq (brow (exactO f1 f2 f3) n)) (l : seq ('cV[F]_n * 'M[F]_n)) :
  map (@bpair F f1 f2 f3 n) bs = l -> map (@b_mean _ n) bs = map fst l /\ map (@b_cov _ n) bs = map snd l.
Proof. by move=> <-; rewrite -!map_comp. Qed.

(** ** C18.  Run batch_filter over any epochs (any of them without measurement), then
    rts_smoother on its output.  Nothing raises; the smoothed states are the unique
    minimiser of the trajectory's least-squares cost; and each smoothed covariance is
    the curvature of the cost profiled over all the other states.  The last smoothed
    pair is the filter's own, so the filter's estimate is the same profile. *)
Theorem C18_smoother_is_trajectory_least_squares : forall (F : realFieldType) (fsqrt fexp flog : F -> F) (n m l : nat)
    (s : kf (exactO fsqrt fexp flog) n m l) (es : seq (epoch F n m)),
  psd (kf_P s : 'M[F]_n) -> kf_B s = None -> kf_alpha_sq s = (1 : F) -> inv_exact s ->
  List.Forall (@good_epoch F n m) es -> es <> [::] ->
  let EO := exactO fsqrt fexp flog in
  let cost := traj_cost (kf_x s : 'cV[F]_n) (kf_P s : 'M[F]_n) es in
  exists (s' : kf EO n m l) (bs : seq (brow EO n)) (r : rts EO n),
  [/\ @kf_batch_filter EO n m l (map (@ep_z F n m) es) (Some (map (fun e => Some (ep_F e)) es))
        (Some (map (fun e => Some (@Mat EO n (ep_Q e))) es)) (Some (map (fun e => Some (ep_H e)) es))
        (Some (map (fun e => Some (@Mat EO m (ep_R e))) es)) None None false s = (s', Ok bs),
      @kf_rts_smoother EO n m l (@mx_inv F n) (map (@b_mean EO n) bs) (map (@b_cov EO n) bs)
        (Some (map (@ep_F F n m) es)) (Some (map (@ep_Q F n m) es)) s' = Ok r &
  let X : seq 'cV[F]_n := rts_x r in let Ps : seq 'M[F]_n := rts_P r in
  [/\ size X = size es /\ size Ps = size es,
      forall vs, size vs = size es -> cost X <= cost vs /\ (cost vs = cost X -> vs = X),
      forall k, (k < size es)%N ->
        [/\ pd (nth 0 Ps k),
            forall vs, size vs = size es -> cost X + qf (invmx (nth 0 Ps k)) (nth 0 vs k - nth 0 X k) <= cost vs &
            forall u, exists vs, [/\ size vs = size es, nth 0 vs k = u &
              cost vs = cost X + qf (invmx (nth 0 Ps k)) (u - nth 0 X k)]] &
      last 0 X = last 0 (map (@b_mean EO n) bs : seq 'cV[F]_n) /\
      last 0 Ps = last 0 (map (@b_cov EO n) bs : seq 'M[F]_n)]].
Proof.
move=> F f1 f2 f3 n m l s [|e es] // pP hB ha hi gs _ EO cost.
have [s' [bs [eb ebs]]] := batch_scan pP hB ha hi gs.
set s0 : 'cV[F]_n * 'M[F]_n := (kf_x s : 'cV[F]_n, kf_P s : 'M[F]_n).
have [g ges] : good_epoch e /\ List.Forall (@good_epoch F n m) es by inversion gs.
have [em ec] := bpairs ebs; rewrite -/s0 in em ec ebs.
have pP1 := post_pd g (pP : psd s0.2).
have [r [er [eX eP]]] := @rts_run_sm F f1 f2 f3 n m (fun k => (k + 1)%coq_nat) es (post e s0)
   (map (@ep_F F n m) (e :: es)) (map (@ep_Q F n m) (e :: es)) ges (pd_psd pP1)
   ltac:(by move=> k e' hk; cbn beta; rewrite PeanoNat.Nat.add_1_r /= !nth_error_map' hk).
exists s', bs, r.
have [c hc] := @profile F n m e es s0 pP gs; rewrite -/cost -eX -eP in hc.
have sX : size (rts_x r) = size (e :: es) by rewrite eX size_map sm_size.
have sP : size (rts_P r) = size (e :: es) by rewrite eP size_map sm_size.
have uniq vs : size vs = size (e :: es) -> cost vs = c -> vs = rts_x r.
  move=> sz ev; apply: (@eq_from_nth _ 0); first by rewrite sz sX.
  move=> k; rewrite sz => hk; have [pPk lo _] := hc k hk.
  have := lo vs sz; rewrite ev -[X in _ <= X]addr0 ler_add2l => h.
  have h0 := qf_ge0 (nth 0 vs k - nth 0 (rts_x r) k) (pd_inv pPk).
  have e0 : qf (invmx (nth 0 (rts_P r) k)) (nth 0 vs k - nth 0 (rts_x r) k) = 0 by apply/eqP; rewrite eq_le h h0.
  by have /eqP := pd_eq0 (pd_inv pPk) e0; rewrite subr_eq0 => /eqP.
have cX : cost (rts_x r) = c.
  have [_ _ at_] := hc 0%N isT; have [vs [sz _ ev]] := at_ (nth 0 (rts_x r) 0).
  rewrite subrr qf0r addr0 in ev; by rewrite -(uniq vs sz ev).
split.
- rewrite /kf_batch_filter hB.
  have -> : length (map (@ep_z F n m) (e :: es)) = length (e :: es) by rewrite !lengthE size_map.
  exact: (etrans (congr1 (fun rows => batch_loop false rows s) (@zip_erows F f1 f2 f3 n m l (e :: es))) eb).
- rewrite /kf_rts_smoother [map (@b_mean _ _) _]em [map (@b_cov _ _) _]ec; exact: er.
rewrite /=; split.
- by rewrite sX sP.
- move=> vs sz; split; last by rewrite cX; apply: uniq.
  have [pPk lo _] := hc 0%N isT; rewrite cX; apply: le_trans (lo vs sz).
  by rewrite ler_addl; apply: qf_ge0; apply: pd_inv.
- move=> k hk; rewrite cX; exact: hc.
rewrite em ec eX eP /=.
elim: es (post e s0) {eb ebs gs cost hc sX sP uniq cX ges em ec pP1 er eX eP} => [|e' es IH] s1 //=.
have [h1 h2] := IH (post e' s1).
move: (sm_size (post e' s1) es) h1 h2; case: (sm (post e' s1) es) => [|y ys] //= _ h1 h2.
Qed.
Print Assumptions C18_smoother_is_trajectory_least_squares.

Lemma sm_mle (F : realFieldType) (n m : nat) (es : seq (epoch F n m)) (s : 'cV[F]_n * 'M[F]_n) :
  psd s.2 -> List.Forall (@good_epoch F n m) es ->
  forall k, (k < size (s :: scan s es))%N ->
  mle (nth 0 (map snd (sm s es)) k) (nth 0 (map snd (s :: scan s es)) k).
Proof.
elim: es s => [|e es IH] s pP gs; first by case=> [|k] //= _; apply: mle_refl.
have [g ges] : good_epoch e /\ List.Forall (@good_epoch F n m) es by inversion gs.
have pP1 := post_pd g pP.
have IH1 := IH (post e s) (pd_psd pP1) ges.
case=> [|k] hk; last exact: IH1.
have le1 : mle (head (0, 0) (sm (post e s) es)).2 (post e s).2.
  have := IH1 0%N isT; move: (sm_size (post e s) es); by case: (sm (post e s) es) => [|y ys].
have le2 : mle (post e s).2 (Ppred e s.2).
  have pp := Ppred_pd g pP; rewrite /post; case: (ep_z e) => [z|] /=; last exact: mle_refl.
  apply: Jmx_le; try exact: pd_psd; first exact: (pd_psd g.2).
  by apply/pd_unit/pd_Smx; [exact: pd_psd|exact: g.2].
have := mle_trans le1 le2; rewrite /mle /=.
set h := head _ _; set G := Kmx _ _ _; move=> hle.
have -> : s.2 - (s.2 + G *m (h.2 - Ppred e s.2) *m G^T) = G *m (Ppred e s.2 - h.2) *m G^T.
  by rewrite !(mulmxBr, mulmxBl); zmod.
exact: psd_congr.
Qed.

(** ** C19.  Structure of the result, law-free: for every arithmetic, inverse routine and
    input, both smoothers raise ValueError exactly when the lists have different lengths;
    otherwise a returned result has the input's length, its last entries are the
    input's, and every other entry is the backward formula applied to the
    input's entry k and the result's entry k+1, with F, Q taken at [idx k]:
    k+1 in the method, k in the function.  The inputs are values and stay as they were. *)
Definition backward_pass (o : nops) (n : nat) (linv : M o n n -> option (M o n n)) (idx : nat -> nat)
    (Fs Qs : list (M o n n)) (Xs : list (M o n 1)) (Ps : list (M o n n)) (r : rts o n) : Prop :=
  length (rts_x r) = length Xs /\ length (rts_P r) = length Xs /\
  length (rts_K r) = length Xs /\ length (rts_Pp r) = length Xs /\
  List.nth_error (rts_x r) (length Xs - 1)%coq_nat = List.nth_error Xs (length Xs - 1)%coq_nat /\
  List.nth_error (rts_P r) (length Xs - 1)%coq_nat = List.nth_error Ps (length Xs - 1)%coq_nat /\
  forall k, (S k < length Xs)%coq_nat -> exists F Q x x1 P P1 Pi,
    List.nth_error Fs (idx k) = Some F /\ List.nth_error Qs (idx k) = Some Q /\
    List.nth_error Xs k = Some x /\ List.nth_error Ps k = Some P /\
    List.nth_error (rts_x r) (S k) = Some x1 /\ List.nth_error (rts_P r) (S k) = Some P1 /\
    let Pp := madd (mdot (mdot F P) (mtr F)) Q in linv Pp = Some Pi /\
    let K := mdot (mdot P (mtr F)) Pi in
    List.nth_error (rts_x r) k = Some (madd x (mdot K (msub x1 (mdot F x)))) /\
    List.nth_error (rts_P r) k = Some (madd P (mdot (mdot K (msub P1 Pp)) (mtr K))) /\
    List.nth_error (rts_K r) k = Some K /\ List.nth_error (rts_Pp r) k = Some Pp.

Lemma rts_run_pass (o : nops) n idx linv Xs Ps Fs Qs (r : rts o n) :
  rts_run idx linv Xs Ps Fs Qs = Ok r -> backward_pass linv idx Fs Qs Xs Ps r.
Proof.
rewrite /rts_run; case el: (PeanoNat.Nat.eqb _ _) => //=.
have {}el : length Xs = length Ps by apply/PeanoNat.Nat.eqb_eq.
move=> h; have [h1 [h2 [h3 [h4 [h5 h6]]]]] := @rts_loop_entries o n idx linv Fs Qs _ _ _ h.
have lK : length (List.repeat (@mzeros o n n) (length Xs)) = length Xs by rewrite List.repeat_length.
have [h3a h3b] := h3 lK (esym el); have [h4a h4b] := h4 _ (le_n _).
split; first exact: h1. split; first by rewrite h2 /= el. split; first exact: h3a. split; first exact: h3b.
split; first exact: h4a. split; first exact: h4b.
move=> k hk; have hk' : (k < (length Xs - 1)%coq_nat)%coq_nat.
  by apply/ssrnat.ltP; move/ssrnat.ltP: hk; case: (length Xs) => [|N] //; rewrite PeanoNat.Nat.sub_1_r.
have [F [Q [x [x1 [P [P1 [Pi [g1 [g2 [g3 [g4 [g5 [g6 [g7 g8]]]]]]]]]]]]]] := h5 lK (esym el) k hk'.
exists F, Q, x, x1, P, P1, Pi; do 6 (split=> //). 
Qed.

Theorem C19_structure : forall (o : nops) (n m l : nat) (linv : M o n n -> option (M o n n))
    (Xs : list (M o n 1)) (Ps : list (M o n n)) (Fs Qs : list (M o n n)) (oF oQ : option (list (M o n n))) (s : kf o n m l),
  (kf_rts_smoother linv Xs Ps oF oQ s = Err ValueError <-> length Xs <> length Ps) /\
  (f_rts_smoother linv Xs Ps Fs Qs = Err ValueError <-> length Xs <> length Ps) /\
  (forall r, kf_rts_smoother linv Xs Ps oF oQ s = Ok r ->
     backward_pass linv S (deflt (kf_F s) (length Xs) oF) (deflt (kf_Q s) (length Xs) oQ) Xs Ps r) /\
  (forall r, f_rts_smoother linv Xs Ps Fs Qs = Ok r -> backward_pass linv id Fs Qs Xs Ps r).
Proof.
have noVE (o : nops) n idx linv Fs Qs c (r : rts o n) : rts_loop idx linv Fs Qs c r <> Err ValueError.
  elim: c r => [|c IH] r //=; rewrite /rts_body.
  by do 6 (case: (List.nth_error _ _) => // ?); case: (linv _) => //= ?; apply: IH.
have key (o : nops) n idx linv Xs Ps Fs Qs : @rts_run o n idx linv Xs Ps Fs Qs = Err ValueError <-> length Xs <> length Ps.
  rewrite /rts_run; case el: (PeanoNat.Nat.eqb _ _) => /=.
    have {}el : length Xs = length Ps by apply/PeanoNat.Nat.eqb_eq.
    by split=> // h; case: (noVE o n idx linv Fs Qs _ _ h).
  by split=> // _ h; move: el; rewrite h PeanoNat.Nat.eqb_refl.
move=> o n m l linv Xs Ps Fs Qs oF oQ s; split; first exact: key. split; first exact: key.
split=> r h; last exact: (rts_run_pass h).
have [h1 [h2 [h3 [h4 [h5 [h6 h7]]]]]] := rts_run_pass h.
do 6 (split=> //); move=> k hk; have := h7 k hk; by rewrite PeanoNat.Nat.add_1_r.
Qed.
Print Assumptions C19_structure.

(** The two versions agree when F and Q are the same at every epoch, for every arithmetic. *)
Theorem C19_agree_when_constant : forall (o : nops) (n m l : nat) (linv : M o n n -> option (M o n n))
    (Xs : list (M o n 1)) (Ps : list (M o n n)) (F Q : M o n n) (s : kf o n m l),
  kf_rts_smoother linv Xs Ps (Some (List.repeat F (length Xs))) (Some (List.repeat Q (length Xs))) s =
  f_rts_smoother linv Xs Ps (List.repeat F (length Xs)) (List.repeat Q (length Xs)).
Proof.
move=> o n m l linv Xs Ps F Q s; rewrite /kf_rts_smoother /f_rts_smoother /rts_run /=.
case: (PeanoNat.Nat.eqb _ _) => //=.
have nr (A : Type) (a : A) N k : (k < N)%coq_nat -> List.nth_error (List.repeat a N) k = Some a.
  by move=> /ssrnat.ltP; elim: N k => [|N IH] [|k] //= /IH.
have key c : (S c <= length Xs)%coq_nat \/ c = 0%N -> forall r,
  rts_loop (fun k => (k + 1)%coq_nat) linv (List.repeat F (length Xs)) (List.repeat Q (length Xs)) c r =
  rts_loop (fun k => k) linv (List.repeat F (length Xs)) (List.repeat Q (length Xs)) c r.
  elim: c => [|c IH] hc r //=.
  have {}hc : (S (S c) <= length Xs)%coq_nat by case: hc.
  rewrite /rts_body !PeanoNat.Nat.add_1_r !nr; try Lia.lia.
  do 4 (case: (List.nth_error _ _) => // ?); case: (linv _) => //= ?; apply: IH.
  by left; Lia.lia.
apply: key; case: (length Xs) => [|N]; first by right.
by left; rewrite /= PeanoNat.Nat.sub_0_r.
Qed.
Print Assumptions C19_agree_when_constant.

(** In general the function's result at Fs, Qs is the method's at the lists shifted by one:
    the first F, Q given to the method are never read. *)
Theorem C19_versions_shifted : forall (o : nops) (n m l : nat) (linv : M o n n -> option (M o n n))
    (Xs : list (M o n 1)) (Ps : list (M o n n)) (F Q : M o n n) (Fs Qs : list (M o n n)) (s : kf o n m l),
  kf_rts_smoother linv Xs Ps (Some (F :: Fs)) (Some (Q :: Qs)) s = f_rts_smoother linv Xs Ps Fs Qs.
Proof.
move=> o n m l linv Xs Ps F Q Fs Qs s; rewrite /kf_rts_smoother /f_rts_smoother /rts_run /=.
case: (PeanoNat.Nat.eqb _ _) => //=.
elim: (length Xs - 1)%coq_nat (mkRts _ _ _ _) => [|c IH] r //=.
by rewrite /rts_body !PeanoNat.Nat.add_1_r; rewrite -[List.nth_error (F :: Fs) c.+1]/(List.nth_error Fs c) -[List.nth_error (Q :: Qs) c.+1]/(List.nth_error Qs c); do 6 (case: (List.nth_error _ _) => // ?); case: (linv _) => //= ?.
Qed.
Print Assumptions C19_versions_shifted.

(** Smoothing the output of batch_filter never increases a covariance. *)
Theorem C19_smoothed_covariance_shrinks : forall (F : realFieldType) (fsqrt fexp flog : F -> F) (n m l : nat)
    (s s' : kf (exactO fsqrt fexp flog) n m l) (es : seq (epoch F n m)) bs r,
  psd (kf_P s : 'M[F]_n) -> kf_B s = None -> kf_alpha_sq s = (1 : F) -> inv_exact s ->
  List.Forall (@good_epoch F n m) es ->
  let EO := exactO fsqrt fexp flog in
  @kf_batch_filter EO n m l (map (@ep_z F n m) es) (Some (map (fun e => Some (ep_F e)) es))
        (Some (map (fun e => Some (@Mat EO n (ep_Q e))) es)) (Some (map (fun e => Some (ep_H e)) es))
        (Some (map (fun e => Some (@Mat EO m (ep_R e))) es)) None None false s = (s', Ok bs) ->
  @kf_rts_smoother EO n m l (@mx_inv F n) (map (@b_mean EO n) bs) (map (@b_cov EO n) bs)
        (Some (map (@ep_F F n m) es)) (Some (map (@ep_Q F n m) es)) s' = Ok r ->
  forall k, (k < size es)%N ->
    mle (nth 0 (rts_P r : seq 'M[F]_n) k) (nth 0 (map (@b_cov EO n) bs : seq 'M[F]_n) k).
Proof.
move=> F f1 f2 f3 n m l s s' [|e es] bs r // pP hB ha hi gs EO hb hr k hk.
have [s'' [bs' [eb ebs]]] := batch_scan pP hB ha hi gs.
have {}hb : batch_loop false (map (@erow F f1 f2 f3 n m l) (e :: es)) s = (s', Ok bs).
  have lz : length (map (@ep_z F n m) (e :: es)) = length (e :: es) by rewrite !lengthE size_map.
  rewrite -[RHS]hb /kf_batch_filter hB lz.
  exact: (congr1 (fun rows => batch_loop false rows s) (esym (@zip_erows F f1 f2 f3 n m l (e :: es)))).
move: eb; rewrite hb => -[_ ebb]; subst bs' => {s'' hb}.
set s0 : 'cV[F]_n * 'M[F]_n := (kf_x s : 'cV[F]_n, kf_P s : 'M[F]_n) in ebs.
have [g ges] : good_epoch e /\ List.Forall (@good_epoch F n m) es by inversion gs.
have [em ec] := bpairs ebs.
have pP1 := post_pd g (pP : psd s0.2).
have [r' [er [eX eP]]] := @rts_run_sm F f1 f2 f3 n m (fun k => (k + 1)%coq_nat) es (post e s0)
   (map (@ep_F F n m) (e :: es)) (map (@ep_Q F n m) (e :: es)) ges (pd_psd pP1)
   ltac:(by move=> k' e' hk'; cbn beta; rewrite PeanoNat.Nat.add_1_r /= !nth_error_map' hk').
have : @kf_rts_smoother EO n m l (@mx_inv F n) (map (@b_mean EO n) bs) (map (@b_cov EO n) bs)
        (Some (map (@ep_F F n m) (e :: es))) (Some (map (@ep_Q F n m) (e :: es))) s' = Ok r'.
  rewrite /kf_rts_smoother [map (@b_mean _ _) _]em [map (@b_cov _ _) _]ec; exact: er.
rewrite hr => -[->]; rewrite eP ec.
by apply: sm_mle => //; [exact: pd_psd|rewrite /= scan_size].
Qed.
Print Assumptions C19_smoothed_covariance_shrinks.

(** ** Concrete cases *)
Notation RO := (@exactO [realFieldType of rat] (@id rat) id id).

Example C18_example :
  let s : kf RO 2 2 0 := @kf_init RO 2 2 0 (1 : rat) (@mx_inv [realFieldType of rat] 2) in
  let es : seq (epoch [realFieldType of rat] 2 2) :=
    [:: Epoch (const_mx 2%:R) 1%:M 1%:M 1%:M (Some (const_mx 1)); Epoch 1%:M 1%:M (const_mx 1) 1%:M None;
        Epoch 0 1%:M 1%:M 1%:M (Some 0)] in
  [/\ psd (kf_P s : 'M[rat]_2), kf_B s = None, kf_alpha_sq s = (1 : rat), inv_exact s &
      List.Forall (@good_epoch [realFieldType of rat] 2 2) es /\ es <> [::]].
Proof.
split=> //; first exact: psd1.
by split=> //; repeat (constructor; first by split; exact: pd1).
Qed.

From Verif Require Import ListOps.
From Coq Require Import QArith.
Import List.ListNotations.
Local Open Scope list_scope.
Definition q1 (q : Q) : M QO 1 1 := [[q]].
Definition rts_kf : kf QO 1 1 1 := set_kf_H (q1 1) (@kf_init QO 1 1 1 (1#1024)%Q (l_inv1 QS)).

(** The values returned; [] if the call raised. *)
Definition smoothed (r : res (rts QO 1)) : list (M QO 1 1) := match r with Ok r => rts_x r | Err _ => [] end.
Definition filtered (r : res (list (brow QO 1))) : list (M QO 1 1) * list (M QO 1 1) :=
  match r with Ok bs => (List.map (@b_mean QO 1) bs, List.map (@b_cov QO 1) bs) | Err _ => ([], []) end.
Definition inv1 : M QO 1 1 -> option (M QO 1 1) := l_inv1 QS.

(** The two versions differ on a model that varies with time. *)
Theorem C19_versions_agree_refuted :
  let Xs := [q1 1; q1 2] in let Ps := [q1 1; q1 2] in let Fs := [q1 1; q1 (1#2)] in let Qs := [q1 1; q1 1] in
  smoothed (kf_rts_smoother inv1 Xs Ps (Some Fs) (Some Qs) rts_kf) = [q1 (8#5); q1 2] /\
  smoothed (f_rts_smoother inv1 Xs Ps Fs Qs) = [q1 (3#2); q1 2].
Proof. split; vm_compute; reflexivity. Qed.
Print Assumptions C19_versions_agree_refuted.

(** The function, called with the lists batch_filter was called with, is not the
    minimiser: with two epochs and no measurement at all the unique
    minimiser is the predicted trajectory itself (cost 0), and the method returns it. *)
Theorem C18_function_version_refuted :
  let Fs := [q1 2; q1 1] in let Qs := [q1 1; q1 1] in
  let out := filtered (snd (kf_batch_filter [None; None] (Some (List.map Some Fs))
                 (Some [Some (Mat (q1 1)); Some (Mat (q1 1))]) None None None None false (set_kf_x (q1 1) rts_kf))) in
  out = ([q1 2; q1 2], [q1 5; q1 6]) /\
  smoothed (kf_rts_smoother inv1 (fst out) (snd out) (Some Fs) (Some Qs) rts_kf) = [q1 2; q1 2] /\
  smoothed (f_rts_smoother inv1 (fst out) (snd out) Fs Qs) = [q1 (22#21); q1 2].
Proof. split; [|split]; vm_compute; reflexivity. Qed.
Print Assumptions C18_function_version_refuted.

(** With a control input the smoother is not the minimiser either: the backward pass
    omits [B u], so even with no measurements it moves the first state
    from 1 to 5/3, although the trajectory (1, 2) follows the controlled model exactly. *)
Theorem C18_control_input_refuted :
  let out := filtered (snd (kf_batch_filter [None; None] None None None None None
               (Some [Some (q1 1); Some (q1 1)]) false (set_kf_B (Some (q1 1)) rts_kf))) in
  out = ([q1 1; q1 2], [q1 2; q1 3]) /\
  smoothed (kf_rts_smoother inv1 (fst out) (snd out) None None rts_kf) = [q1 (5#3); q1 2].
Proof. split; vm_compute; reflexivity. Qed.
Print Assumptions C18_control_input_refuted.

Example C19_example :
  smoothed (f_rts_smoother inv1 [q1 1; q1 2] [q1 1; q1 2] [q1 1; q1 1] [q1 1; q1 1]) = [q1 (3#2); q1 2].
Proof. vm_compute; reflexivity. Qed.
