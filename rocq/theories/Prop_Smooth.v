(** * C80: rts_smoother returns the mean and covariance of each state given the whole record. *)
From mathcomp Require Import all_ssreflect all_algebra.
From Verif Require Import Ops Exact Spec ZmodTac LinAlg Model_KF Spec_KF Spec_KF_exact Spec_RTS Spec_Stat Spec_Joint Spec_Smooth
  Proof_KF Proof_KF_exact Proof_RTS Proof_RTS_exact Prop_RTS Prop_Stat Prop_Joint.
Set Implicit Arguments.
Unset Strict Implicit.
Unset Printing Implicit Defensive.
Import Order.TTheory GRing.Theory Num.Theory.
Local Open Scope ring_scope.

(** ** The kept state, conditionally: mean, covariance, covariance with the state now *)
Section Trip.
Variables (F : realFieldType) (n m : nat).
Notation epoch := (epoch F n m).
Notation st := ('cV[F]_n * 'M[F]_n)%type.
Record trip := Trip { t_m : 'cV[F]_n; t_P : 'M[F]_n; t_X : 'M[F]_n }.

Definition tmeas (s : st) (H : 'M[F]_(m, n)) (R : 'M[F]_m) (z : 'cV[F]_m) (t : trip) : trip :=
  let g := t_X t *m H^T *m invmx (Smx s.2 H R) in
  Trip (t_m t + g *m (z - H *m s.1)) (t_P t - g *m H *m (t_X t)^T) (t_X t - g *m H *m s.2).
Definition tstep (e : epoch) (s : st) (t : trip) : trip :=
  let t1 := Trip (t_m t) (t_P t) (t_X t *m (ep_F e)^T) in
  if ep_z e is Some z then tmeas (ep_F e *m s.1, Ppred e s.2) (ep_H e) (ep_R e) z t1 else t1.
Fixpoint trun (s : st) (es : seq epoch) (t : trip) : trip :=
  if es is e :: es then trun (post e s) es (tstep e s t) else t.

Definition related (G : 'M[F]_n) (c c' : 'cV[F]_n) (P0 P1 : 'M[F]_n) (t t' : trip) : Prop :=
  [/\ t_m t = c + G *m (t_m t' - c'), t_P t = P0 + G *m (t_P t' - P1) *m G^T & t_X t = G *m t_X t'].
Lemma related_meas G c c' P0 P1 s H R z t t' : related G c c' P0 P1 t t' ->
  related G c c' P0 P1 (tmeas s H R z t) (tmeas s H R z t').
Proof.
case=> h1 h2 h3; rewrite /tmeas /related /= h1 h2 h3; move: (invmx _) => S; split; rewrite ?trmx_mul; mxring.
Qed.
Lemma related_step (e : epoch) (s : st) G c c' P0 P1 t t' : related G c c' P0 P1 t t' ->
  related G c c' P0 P1 (tstep e s t) (tstep e s t').
Proof.
move=> h; have h1 : related G c c' P0 P1 (Trip (t_m t) (t_P t) (t_X t *m (ep_F e)^T)) (Trip (t_m t') (t_P t') (t_X t' *m (ep_F e)^T)).
  by case: h => h1 h2 h3; split=> //=; rewrite h3 mulmxA.
by rewrite /tstep; case: (ep_z e) => [z|] //; exact: related_meas.
Qed.
Lemma related_run es s G c c' P0 P1 t t' : related G c c' P0 P1 t t' ->
  related G c c' P0 P1 (trun s es t) (trun s es t').
Proof. by elim: es s t t' => [|e es IH] s t t' h //=; apply: IH; exact: related_step. Qed.

Lemma post_psd (e : epoch) (s : st) : mild_epoch e -> psd s.2 -> psd (Ppred e s.2) /\ psd (post e s).2.
Proof.
move=> [pQ pR] pP; have pp : psd (Ppred e s.2) by exact: psd_Smx.
by split=> //; rewrite /post; case: (ep_z e) => [z|] //=; apply: psd_Jmx => //; exact: pd_psd.
Qed.

Lemma fork_smooths es (s : st) : psd s.2 -> List.Forall (@mild_epoch F n m) es ->
  (forall k e a, List.nth_error es k = Some e -> List.nth_error (s :: scan s es) k = Some a -> Ppred e a.2 \in unitmx) ->
  let t := trun s es (Trip s.1 s.2 s.2) in head (0, 0) (sm s es) = (t_m t, t_P t).
Proof.
elim: es s => [|e es IH] s pP; first by case: s {pP}.
move=> /List.Forall_cons_iff [me mes] hu /=.
have [pp pP1] := post_psd me pP.
have up : Ppred e s.2 \in unitmx by apply: (hu 0%N).
rewrite (IH (post e s)) //=; last by move=> k e' a h1 h2; apply: (hu k.+1 e').
set G := Kmx _ _ _.
pose r := related G s.1 (ep_F e *m s.1) s.2 (Ppred e s.2).
suff h : r (tstep e s (Trip s.1 s.2 s.2)) (Trip (post e s).1 (post e s).2 (post e s).2).
  by have [-> -> _] := related_run es (post e s) h.
have h0 : r (Trip s.1 s.2 (s.2 *m (ep_F e)^T)) (Trip (ep_F e *m s.1) (Ppred e s.2) (Ppred e s.2)).
  by split=> /=; rewrite ?subrr ?mulmx0 ?mul0mx ?addr0 // /G /Ppred KmxS.
rewrite /tstep /post; case: (ep_z e) => [z|] //.
have sPp := psd_sym pp; have pS := pd_Smx (ep_H e) pp me.2.
have := related_meas (ep_F e *m s.1, Ppred e s.2) (ep_H e) (ep_R e) z h0; rewrite /r.
congr (related _ _ _ _ _ _ _); rewrite /tmeas /= /xup /Pup; congr Trip.
- by rewrite -/(Kmx _ _ _) Jmx_short ?pd_unit ?(pd_sym me.2) // mulmxBl mul1mx sPp.
- by rewrite -/(Kmx _ _ _) Jmx_short ?pd_unit ?(pd_sym me.2) // mulmxBl mul1mx.
Qed.
End Trip.

(** ** The law of the record, epoch by epoch *)
Section Law.
Variable F : realFieldType.
Variables (fsqrt fexp flog : F -> F).
Notation EO := (exactO fsqrt fexp flog).
Variables n m l : nat.
Notation kf := (kf EO n m l).
Notation epoch := (epoch F n m).
Notation st := ('cV[F]_n * 'M[F]_n)%type.
Notation joint := (joint F n unit).
Notation past := (past F n unit).
Variable s0 : kf.
Hypothesis B0 : kf_B s0 = None.

Record cond (j : joint) (s : st) : Prop := Cond {
  cd_u : j_V j \in unitmx; cd_sV : (j_V j)^T = j_V j; cd_sP : (j_Px j)^T = j_Px j;
  cd_x : s.1 = j_mx j + j_C j *m invmx (j_V j) *m (j_z j tt - j_mz j);
  cd_P : s.2 = j_Px j - j_C j *m invmx (j_V j) *m (j_C j)^T }.
Definition ctrip (p : past) : trip F n :=
  Trip (given_mean tt p) (given_cov p) (p_X p - p_Z p *m invmx (j_V (p_j p)) *m (j_C (p_j p))^T).

Lemma ctrip_of j s : cond j s -> ctrip (past_of j) = Trip s.1 s.2 s.2.
Proof. by case=> _ _ _ e1 e2; rewrite /ctrip /given_mean /given_cov /past_of /= -e1 -e2. Qed.

Notation opred e := (@OPredict F fsqrt fexp flog n m l unit None None (Some (ep_F e)) (Some (@Mat EO n (ep_Q e)))).
Notation omeas z R H := (@OMeasure F fsqrt fexp flog n m l unit (fun=> z) (Some (@Mat EO m R)) (Some H)).

Lemma cond_predict (e : epoch) j s : sym (ep_Q e) -> cond j s ->
  cond (joint_step s0 (opred e) j) (ep_F e *m s.1, Ppred e s.2).
Proof.
move=> sQ [uV sV sP e1 e2]; split=> //=.
- by rewrite linearD /= sQ sym_congr.
- by rewrite /input B0 e1; mxring.
- by rewrite PpredE e2; mxring.
Qed.
Lemma past_predict (e : epoch) p : 
  ctrip (past_step s0 (opred e) p) = let t := ctrip p in Trip (t_m t) (t_P t) (t_X t *m (ep_F e)^T).
Proof. by rewrite /ctrip /given_mean /given_cov /=; congr Trip; mxring. Qed.

Lemma measure (H : 'M[F]_(m, n)) (R : 'M[F]_m) z p s : cond (p_j p) s -> sym R -> sym s.2 -> Smx s.2 H R \in unitmx ->
  cond (joint_step s0 (omeas z R H) (p_j p)) (xup s.1 s.2 H R z, Pup s.2 H R) /\
  ctrip (past_step s0 (omeas z R H) p) = tmeas s H R z (ctrip p).
Proof.
move=> [uV sV sP ex eP] sR sPs uS.
case: p uV sV sP ex eP => j pm pP pX Z /=.
set V := j_V j; set C := j_C j; set Px := j_Px j => uV sV sP ex eP.
pose B := C^T *m H^T; pose D := H *m Px *m H^T + R.
have eB : B^T = H *m C by rewrite trmx_mul !trmxK.
have eSch : D - B^T *m invmx V *m B = Smx s.2 H R by rewrite eB /B /D /Smx eP; mxring.
have uS' : D - B^T *m invmx V *m B \in unitmx by rewrite eSch.
have sD : D^T = D by rewrite linearD /= sR sym_congr.
have sVi := sym_inv sV.
have eVV : block_mx V (C^T *m H^T) (H *m C) (H *m Px *m H^T + R) = block_mx V B B^T D by rewrite eB.
have row q (c1 : 'M[F]_(q, _)) c2 : row_mx c1 c2 *m invmx (block_mx V B B^T D) =
    let g := (c2 - c1 *m invmx V *m B) *m invmx (Smx s.2 H R) in
    row_mx (c1 *m invmx V - g *m B^T *m invmx V) g by rewrite block_row // eSch.
split.
- have ek : (Px *m H^T - C *m invmx V *m B) *m invmx (Smx s.2 H R) = Kmx s.2 H R.
    by rewrite /Kmx /B !mulmxA -mulmxBl -eP.
  split=> /=; rewrite -?/V -?/C -?/Px -?[Hm _ _]/H -?[Rm _ _]/R ?eVV //.
  + exact: block_unit.
  + by rewrite tr_block_mx trmxK sV sD.
  + rewrite row /= ek opp_col_mx add_col_mx mul_row_col /xup ex ?eB; mxring.
  + rewrite row /= ek tr_row_mx mul_row_col /Pup Jmx_short // !trmx_mul sP !trmxK.
    by rewrite mulmxBl mul1mx ?eB; move: (Kmx _ H R) => K; rewrite eP; mxring.
- have ek : (pX *m H^T - Z *m invmx V *m B) *m invmx (Smx s.2 H R) = (pX - Z *m invmx V *m C^T) *m H^T *m invmx (Smx s.2 H R).
    by rewrite /B !mulmxA -mulmxBl.
  rewrite /ctrip /given_mean /given_cov /tmeas /= -?/V -?/C -?/Px -?[Hm _ _]/H -?[Rm _ _]/R eVV.
  rewrite row /= ek; move: ((pX - _) *m H^T *m _) => g.
  congr Trip.
  + rewrite opp_col_mx add_col_mx mul_row_col ex ?eB; mxring.
  + rewrite tr_row_mx mul_row_col !trmx_mul !trmxK ?eB [(pX - _)^T]raddfB /= !trmx_mul trmxK sVi; mxring.
  + rewrite tr_row_mx mul_row_col !trmx_mul !trmxK sP ?eB eP; mxring.
Qed.
End Law.

(** ** batch_filter and the backward pass when Q may be singular *)
Section Run.
Variables (F : realFieldType) (fsqrt fexp flog : F -> F) (n m l : nat).
Notation EO := (exactO fsqrt fexp flog).
Notation epoch := (epoch F n m).
Notation st := ('cV[F]_n * 'M[F]_n)%type.
Notation kf := (kf EO n m l).
Notation mild := (List.Forall (@mild_epoch F n m)).

Fixpoint preds (s : st) (es : seq epoch) : seq 'M[F]_n :=
  if es is e :: es then Ppred e s.2 :: preds (post e s) es else [::].

Lemma preds_nth es s k : List.nth_error (preds s es) k =
  if List.nth_error es k is Some e then if List.nth_error (s :: scan s es) k is Some a then Some (Ppred e a.2) else None else None.
Proof. by elim: es s k => [|e es IH] s [|k] //=; rewrite IH. Qed.
Lemma preds_size es s : size (preds s es) = size es.
Proof. by elim: es s => [|e es IH] s //=; rewrite IH. Qed.
Lemma preds_unit es s k e a : List.Forall (fun P => P \in unitmx) (preds s es) ->
  List.nth_error es k = Some e -> List.nth_error (s :: scan s es) k = Some a -> Ppred e a.2 \in unitmx.
Proof.
move=> /List.Forall_forall h he ha; apply: h; apply: (List.nth_error_In _ k).
by rewrite preds_nth he ha.
Qed.

Lemma batch_mild (es : seq epoch) (s : kf) :
  psd (kf_P s : 'M[F]_n) -> kf_B s = None -> kf_alpha_sq s = 1 -> inv_exact s -> mild es ->
  exists s' bs, [/\ batch_loop false (map (@erow F fsqrt fexp flog n m l) es) s = (s', Ok bs),
    map (@bpair F fsqrt fexp flog n) bs = scan (kf_x s : 'cV[F]_n, kf_P s : 'M[F]_n) es &
    map (@b_cov_p EO n) bs = preds (kf_x s : 'cV[F]_n, kf_P s : 'M[F]_n) es].
Proof.
elim: es s => [|e es IH] s pP hB ha hi; first by exists s, [::].
move=> /List.Forall_cons_iff [g ges].
set s0 : st := (kf_x s : 'cV[F]_n, kf_P s : 'M[F]_n).
have [pp pP'] := @post_psd F n m e s0 g pP.
have aP : 1 *: (ep_F e *m (kf_P s : 'M[F]_n) *m (ep_F e)^T) + ep_Q e = Ppred e s0.2.
  by rewrite scale1r PpredE.
have [s1 [e1 [ex [eP [eB [ea ei]]]]]] : exists s1, batch_step false (@erow F fsqrt fexp flog n m l e) s =
    (s1, Ok (@mkBrow EO n (post e s0).1 (post e s0).2 (ep_F e *m s0.1) (Ppred e s0.2))) /\
    kf_x s1 = (post e s0).1 /\ kf_P s1 = (post e s0).2 /\ kf_B s1 = None /\
    kf_alpha_sq s1 = kf_alpha_sq s /\ kf_inv s1 = kf_inv s.
  apply: (@epoch_step EO n m l) => //; first by rewrite ha; exact: aP.
  have pS := pd_Smx (ep_H e) pp g.2.
  rewrite /post; case: (ep_z e) => [z|] //.
  exists (invmx (Smx (Ppred e s0.2) (ep_H e) (ep_R e))); split; last by [].
  have := hi (Smx (Ppred e s0.2) (ep_H e) (ep_R e)); rewrite /mx_inv pd_unit // => h; exact: h.
have [||||| s' [bs [e2 e3 e4]]] := IH s1 => //.
- by rewrite eP.
- by rewrite ea.
- by move=> A; rewrite ei.
exists s', (@mkBrow EO n (post e s0).1 (post e s0).2 (ep_F e *m s0.1) (Ppred e s0.2) :: bs).
split; first (pose proof (@batch_loop_cons EO n m l false (@erow F fsqrt fexp flog n m l e) (map (@erow F fsqrt fexp flog n m l) es) s s1 s' _ bs e1 e2) as q; exact q).
- by rewrite /= e3 ex eP /bpair /=; case: (post e s0).
- by rewrite /= e4 ex eP /=; case: (post e s0).
Qed.

Lemma scan_mild (es : seq epoch) s k a : mild es -> psd s.2 -> List.nth_error (s :: scan s es) k = Some a -> psd a.2.
Proof.
elim: es s k => [|e es IH] s [|k] //=; try by move=> _ h [<-].
  by case: k.
by move=> /List.Forall_cons_iff [g ges] pP; apply: IH => //; exact: (post_psd g pP).2.
Qed.

Section Back.
Variables (idx : nat -> nat) (es : seq epoch) (s : st) (Fs Qs : seq 'M[F]_n).
Hypothesis hFQ : forall k e, List.nth_error es k = Some e ->
  List.nth_error Fs (idx k) = Some (ep_F e) /\ List.nth_error Qs (idx k) = Some (ep_Q e).
Notation run := (rts_run (o := EO) idx (@mx_inv F n) (map fst (s :: scan s es)) (map snd (s :: scan s es)) Fs Qs).

Lemma back_ok : List.Forall (fun P => P \in unitmx) (preds s es) -> exists r, run = Ok r.
Proof.
move=> hu; rewrite /rts_run.
set X := map fst _; set Ps := map snd _.
have lX : length X = (size es).+1 by rewrite /X lengthE size_map /= scan_size.
have lP : length Ps = (size es).+1 by rewrite /Ps lengthE size_map /= scan_size.
rewrite lX lP PeanoNat.Nat.eqb_refl /= PeanoNat.Nat.sub_0_r.
apply: rts_loop_ok.
- by change (lt (size es) (length X)); rewrite lX; apply: le_n.
- by change (lt (size es) (length Ps)); rewrite lP; apply: le_n.
move=> k P /ssrnat.ltP hk hP; have [e he] := nth_error_ex hk; have [hF hQ] := hFQ he.
exists (ep_F e), (ep_Q e), (invmx (Ppred e P)); split => //; split=> //.
have u : Ppred e P \in unitmx.
  move: hP; rewrite /= /Ps nth_error_map'; case ea: (List.nth_error _ _) => [a|] //= [<-].
  exact: (preds_unit hu he ea).
by rewrite PpredE in u *; rewrite /mx_inv /= u.
Qed.

Lemma back_sm r : run = Ok r ->
  [/\ List.Forall (fun P => P \in unitmx) (preds s es), rts_x r = map fst (sm s es) & rts_P r = map snd (sm s es)].
Proof.
rewrite /rts_run.
set X := map fst _; set Ps := map snd _.
have lX : length X = (size es).+1 by rewrite /X lengthE size_map /= scan_size.
have lP : length Ps = (size es).+1 by rewrite /Ps lengthE size_map /= scan_size.
rewrite lX lP PeanoNat.Nat.eqb_refl /= PeanoNat.Nat.sub_0_r.
set r0 := mkRts _ _ _ _ => hr.
have [h1 [h2 [h3 [h4 [h5 h6]]]]] := @rts_loop_entries EO n idx (@mx_inv F n) Fs Qs (size es) r0 r hr.
have lr : length (rts_K r0) = length (rts_x r0) by change (S (length (List.repeat (0 : 'M[F]_n) (size es))) = length X); rewrite List.repeat_length lX.
have lr' : length (rts_Pp r0) = length (rts_x r0) by change (length Ps = length X); rewrite lX lP.
have sx : size (rts_x r) = (size es).+1 by rewrite -lengthE h1.
have sp : size (rts_P r) = (size es).+1 by rewrite -lengthE h2.
have key k e : List.nth_error es k = Some e -> exists a x1 P1,
     [/\ List.nth_error (s :: scan s es) k = Some a,
         List.nth_error (rts_x r) k.+1 = Some x1, List.nth_error (rts_P r) k.+1 = Some P1, Ppred e a.2 \in unitmx &
         let G := Kmx a.2 (ep_F e) (ep_Q e) in
         List.nth_error (rts_x r) k = Some (a.1 + G *m (x1 - ep_F e *m a.1)) /\
         List.nth_error (rts_P r) k = Some (a.2 + G *m (P1 - Ppred e a.2) *m G^T)].
  move=> he; have hk : (k < size es)%N := nth_error_size he.
  have [F' [Q' [x [x1 [P [P1 [Pi [g1 [g2 [g3 [g4 [g5 [g6 [g7 g8]]]]]]]]]]]]]] := h5 lr lr' k (ssrnat.ltP hk).
  have [hF hQ] := hFQ he.
  move: g1 g2; rewrite hF hQ => -[eF] [eQ]; subst F' Q'.
  move: g3 g4; rewrite /= /X /Ps !nth_error_map'; case ea: (List.nth_error _ _) => [a|] //= [ex] [eP].
  exists a, x1, P1.
  have ePp : ep_F e *m P *m (ep_F e)^T + ep_Q e = Ppred e a.2 by rewrite PpredE eP.
  move: g7 g8; rewrite /= ePp /mx_inv; case: ifP => // u [<-] [g8 [g9 _]]; rewrite -ex -eP in g8 g9 *.
  by split=> //; split=> //; first [exact: g8|exact: g9].
suff [-> ->] : rts_x r = map fst (sm s es) /\ rts_P r = map snd (sm s es).
  split=> //; apply/List.Forall_forall => P /(@List.In_nth_error _ _ _) [k]; rewrite preds_nth.
  case he: (List.nth_error es k) => [e|] //; have [a [x1 [P1 [ea _ _ u _]]]] := key k e he.
  by rewrite ea => -[<-].
apply: sm_char => //.
- by move=> k e he; have [a [x1 [P1 [ea e1 e2 u e3]]]] := key k e he; exists a, x1, P1.
- have [-> _] := h4 (size es) (le_n _); rewrite /= /X nth_error_map' -[size es](scan_size s) nth_error_last //.
- have [_ ->] := h4 (size es) (le_n _); rewrite /= /Ps nth_error_map' -[size es](scan_size s) nth_error_last //.
Qed.
End Back.

(** *** The smoothed pairs are the conditional ones. *)
Variable s0 : kf.
Hypothesis B0 : kf_B s0 = None.
Notation obs_of es := (@epochs_obs F fsqrt fexp flog n m l es).

Lemma law_step (e : epoch) (p : past F n unit) (s : st) : mild_epoch e -> psd s.2 -> cond (p_j p) s ->
  let p' := past_run s0 (@epoch_obs F fsqrt fexp flog n m l e) p in
  [/\ cond (p_j p') (post e s), p_j p' = joint_run s0 (@epoch_obs F fsqrt fexp flog n m l e) (p_j p) & ctrip p' = tstep e s (ctrip p)].
Proof.
move=> g pP cd; have [pp _] := post_psd g pP; have [pQ pR] := g.
have c1 := cond_predict B0 (psd_sym pQ) cd.
have t1 := past_predict s0 e p.
rewrite /epoch_obs /post /tstep; case: (ep_z e) => [z|] /=; last by split.
set p1 := past_step s0 _ p in t1 *.
have [c2 t2] := @measure F fsqrt fexp flog n m l s0 (ep_H e) (ep_R e) z p1 _ c1 (pd_sym pR) (psd_sym pp) (pd_unit (pd_Smx _ pp pR)).
by split=> //; rewrite t2 t1.
Qed.

Lemma past_run_cat os os' (p : past F n unit) : past_run s0 (os ++ os') p = past_run s0 os' (past_run s0 os p).
Proof. by elim: os p => [|c os IH] p //=. Qed.
Lemma joint_run_cat os os' (j : joint F n unit) : joint_run s0 (os ++ os') j = joint_run s0 os' (joint_run s0 os j).
Proof. by elim: os j => [|c os IH] j //=. Qed.

Lemma law_trun es (p : past F n unit) (s : st) : mild es -> psd s.2 -> cond (p_j p) s ->
  ctrip (past_run s0 (obs_of es) p) = trun s es (ctrip p).
Proof.
elim: es p s => [|e es IH] p s //= /List.Forall_cons_iff [g ges] pP cd.
have [c1 _ t1] := law_step g pP cd; rewrite /epochs_obs /= -/(epoch_obs _ _ _ l e) in c1 t1 *.
by have := IH _ _ ges (post_psd g pP).2 c1; rewrite t1.
Qed.

Lemma law_sm es (j : joint F n unit) (s : st) : mild es -> psd s.2 -> cond j s ->
  List.Forall (fun P => P \in unitmx) (preds s es) -> forall k, (k <= size es)%N ->
  let p := past_run s0 (obs_of (drop k es)) (past_of (joint_run s0 (obs_of (take k es)) j)) in
  nth (0, 0) (sm s es) k = (given_mean tt p, given_cov p).
Proof.
move=> ges pP cd hu k; elim: k es j s ges pP cd hu => [|k IH] es j s ges pP cd hu hk.
  rewrite take0 drop0 /=.
  have h := @fork_smooths F n m es s pP ges (fun k e a => preds_unit hu).
  have h2 := @law_trun es (past_of j) s ges pP cd; rewrite (ctrip_of cd) in h2.
  by rewrite nth0 h -h2.
case: es ges hu hk => [|e es] //= /List.Forall_cons_iff [g ges] /List.Forall_cons_iff [_ hu] hk.
have [c1 ej _] := law_step g pP (cd : cond (p_j (past_of j)) s).
rewrite ej in c1.
exact: (IH es _ _ ges (post_psd g pP).2 c1 hu hk).
Qed.

Lemma cond_start (s : kf) : psd (kf_P s : 'M[F]_n) -> cond (joint_start unit s) (kf_x s : 'cV[F]_n, kf_P s : 'M[F]_n).
Proof.
move=> pP; split=> /=.
- by rewrite unitmxE det_mx00 unitr1.
- by rewrite trmx0.
- exact: psd_sym.
- by rewrite !mul0mx addr0.
- by rewrite !mul0mx subr0.
Qed.
End Run.

Lemma smoother_core : forall (F : realFieldType) (fsqrt fexp flog : F -> F) (n m l : nat)
    (s : kf (exactO fsqrt fexp flog) n m l) (es : seq (epoch F n m)),
  psd (kf_P s : 'M[F]_n) -> kf_B s = None -> kf_alpha_sq s = (1 : F) -> inv_exact s ->
  List.Forall (@mild_epoch F n m) es -> es <> [::] ->
  let EO := exactO fsqrt fexp flog in
  let obs_of := @epochs_obs F fsqrt fexp flog n m l in
  exists (s' : kf EO n m l) (bs : seq (brow EO n)),
  let smoother := @kf_rts_smoother EO n m l (@mx_inv F n) (map (@b_mean EO n) bs) (map (@b_cov EO n) bs)
        (Some (map (@ep_F F n m) es)) (Some (map (@ep_Q F n m) es)) s' in
  [/\ @kf_batch_filter EO n m l (map (@ep_z F n m) es) (Some (map (fun e => Some (ep_F e)) es))
        (Some (map (fun e => Some (@Mat EO n (ep_Q e))) es)) (Some (map (fun e => Some (ep_H e)) es))
        (Some (map (fun e => Some (@Mat EO m (ep_R e))) es)) None None false s = (s', Ok bs),
      (exists r, smoother = Ok r) <->
        (forall k, (0 < k < size es)%N -> (nth 0 (map (@b_cov_p EO n) bs) k : 'M[F]_n) \in unitmx) &
      forall r, smoother = Ok r ->
      [/\ size (rts_x r) = size es, size (rts_P r) = size es &
      forall k, (k < size es)%N ->
        let now := joint_run s (obs_of (take k.+1 es)) (joint_start unit s) in
        let p := past_run s (obs_of (drop k.+1 es)) (past_of now) in
        nth (0 : 'cV[F]_n) (rts_x r) k = given_mean tt p /\ nth (0 : 'M[F]_n) (rts_P r) k = given_cov p]] /\
  map (@b_cov_p EO n) bs = preds (kf_x s : 'cV[F]_n, kf_P s : 'M[F]_n) es.
Proof.
move=> F f1 f2 f3 n m l s [|e es] // pP hB ha hi gs _ EO obs_of.
have [s' [bs [eb ebs ecp]]] := batch_mild pP hB ha hi gs.
exists s', bs => smoother.
set s0 : 'cV[F]_n * 'M[F]_n := (kf_x s : 'cV[F]_n, kf_P s : 'M[F]_n).
move/List.Forall_cons_iff: (gs) => [g ges].
have [em ec] := bpairs ebs; rewrite -/s0 in em ec ebs ecp.
have pP1 := (post_psd g (pP : psd s0.2)).2.
have hFQ k e' : List.nth_error es k = Some e' ->
    List.nth_error (map (@ep_F F n m) (e :: es)) (k + 1)%coq_nat = Some (ep_F e') /\
    List.nth_error (map (@ep_Q F n m) (e :: es)) (k + 1)%coq_nat = Some (ep_Q e').
  by move=> hk; rewrite PeanoNat.Nat.add_1_r /= !nth_error_map' hk.
have eS : smoother = rts_run (o := EO) (fun k => (k + 1)%coq_nat) (@mx_inv F n)
   (map fst (post e s0 :: scan (post e s0) es)) (map snd (post e s0 :: scan (post e s0) es))
   (map (@ep_F F n m) (e :: es)) (map (@ep_Q F n m) (e :: es)).
  by rewrite /smoother /kf_rts_smoother [map (@b_mean _ _) _]em [map (@b_cov _ _) _]ec.
have bok := @back_ok F f1 f2 f3 n m _ es (post e s0) _ _ hFQ.
have bsm := @back_sm F f1 f2 f3 n m _ es (post e s0) _ _ hFQ.
rewrite eS {eS smoother}; split; last exact: ecp.
split.
- rewrite /kf_batch_filter hB.
  have -> : length (map (@ep_z F n m) (e :: es)) = length (e :: es) by rewrite !lengthE size_map.
  exact: (etrans (congr1 (fun rows => batch_loop false rows s) (@zip_erows F f1 f2 f3 n m l (e :: es))) eb).
- rewrite [map (@b_cov_p _ _) bs]ecp; split.
  + move=> [r /bsm [/List.Forall_forall hu _ _]] [|k] //= hk; apply: hu.
    have hk' : (k < size (preds (post e s0) es))%N by rewrite preds_size.
    have [x hx] := nth_error_ex hk'.
    have -> : nth 0 (preds (post e s0) es) k = x.
      by elim: (preds _ _) k hx {hk hk'} => [|y ys IH] [|k] //= => [[]|/IH].
    exact: List.nth_error_In hx.
  + move=> hu; apply: bok; apply/List.Forall_forall => x /(@List.In_nth_error _ _ _) [k hx].
    have hk := nth_error_size hx; rewrite preds_size in hk.
    have := hu k.+1 hk => /=.
    have -> // : nth 0 (preds (post e s0) es) k = x.
    by elim: (preds _ _) k hx {hk} => [|y ys IH] [|k] //= => [[]|/IH].
- move=> r /bsm [hu eX eP]; split; rewrite ?eX ?eP ?size_map ?sm_size // => k hk.
  have hk' : (k < size (sm (post e s0) es))%N by rewrite sm_size.
  have cd : cond (p_j (past_of (joint_start unit s))) s0 := cond_start pP.
  have [c1 ej _] := @law_step F f1 f2 f3 n m l s hB e (past_of (joint_start unit s)) s0 g pP cd.
  rewrite ej in c1.
  have := @law_sm F f1 f2 f3 n m l s hB es _ _ ges pP1 c1 hu k hk.
  by rewrite (nth_map (0, 0)) // (nth_map (0, 0)) // => ->.
Qed.

(** ** C80.  Run batch_filter over any epochs, with any process noise covariance (singular ones
    included) and any of them without measurement, then rts_smoother on its output.  batch_filter
    does not raise.  rts_smoother returns if and only if the predicted covariances of the second and
    later epochs are invertible.  When it returns, entry k of its states and covariances is the mean
    and the covariance of the state after epoch k given the whole record of measurements, those
    taken after epoch k included.  The joint law of that state and the record is built by
    Spec_Smooth's moment recursion, which never conditions. *)
Theorem C80_smoother_is_conditioning : forall (F : realFieldType) (fsqrt fexp flog : F -> F) (n m l : nat)
    (s : kf (exactO fsqrt fexp flog) n m l) (es : seq (epoch F n m)),
  psd (kf_P s : 'M[F]_n) -> kf_B s = None -> kf_alpha_sq s = (1 : F) -> inv_exact s ->
  List.Forall (@mild_epoch F n m) es -> es <> [::] ->
  let EO := exactO fsqrt fexp flog in
  let obs_of := @epochs_obs F fsqrt fexp flog n m l in
  exists (s' : kf EO n m l) (bs : seq (brow EO n)),
  let smoother := @kf_rts_smoother EO n m l (@mx_inv F n) (map (@b_mean EO n) bs) (map (@b_cov EO n) bs)
        (Some (map (@ep_F F n m) es)) (Some (map (@ep_Q F n m) es)) s' in
  [/\ @kf_batch_filter EO n m l (map (@ep_z F n m) es) (Some (map (fun e => Some (ep_F e)) es))
        (Some (map (fun e => Some (@Mat EO n (ep_Q e))) es)) (Some (map (fun e => Some (ep_H e)) es))
        (Some (map (fun e => Some (@Mat EO m (ep_R e))) es)) None None false s = (s', Ok bs),
      (exists r, smoother = Ok r) <->
        (forall k, (0 < k < size es)%N -> (nth 0 (map (@b_cov_p EO n) bs) k : 'M[F]_n) \in unitmx) &
      forall r, smoother = Ok r ->
      [/\ size (rts_x r) = size es, size (rts_P r) = size es &
      forall k, (k < size es)%N ->
        let now := joint_run s (obs_of (take k.+1 es)) (joint_start unit s) in
        let p := past_run s (obs_of (drop k.+1 es)) (past_of now) in
        nth (0 : 'cV[F]_n) (rts_x r) k = given_mean tt p /\ nth (0 : 'M[F]_n) (rts_P r) k = given_cov p]].
Proof.
move=> F f1 f2 f3 n m l s es pP hB ha hi gs ne EO obs_of.
by have [s' [bs [h _]]] := smoother_core pP hB ha hi gs ne; exists s', bs.
Qed.
Print Assumptions C80_smoother_is_conditioning.

(** With a positive definite start and invertible motions both calls return, whatever the process
    noise; Q = 0 and the rank one matrices of Q_discrete_white_noise are included. *)
Theorem C80_returns : forall (F : realFieldType) (fsqrt fexp flog : F -> F) (n m l : nat)
    (s : kf (exactO fsqrt fexp flog) n m l) (es : seq (epoch F n m)),
  pd (kf_P s : 'M[F]_n) -> kf_B s = None -> kf_alpha_sq s = (1 : F) -> inv_exact s ->
  List.Forall (@mild_epoch F n m) es -> List.Forall (fun e => ep_F e \in unitmx) es -> es <> [::] ->
  let EO := exactO fsqrt fexp flog in
  exists (s' : kf EO n m l) (bs : seq (brow EO n)) r,
      @kf_batch_filter EO n m l (map (@ep_z F n m) es) (Some (map (fun e => Some (ep_F e)) es))
        (Some (map (fun e => Some (@Mat EO n (ep_Q e))) es)) (Some (map (fun e => Some (ep_H e)) es))
        (Some (map (fun e => Some (@Mat EO m (ep_R e))) es)) None None false s = (s', Ok bs) /\
      @kf_rts_smoother EO n m l (@mx_inv F n) (map (@b_mean EO n) bs) (map (@b_cov EO n) bs)
        (Some (map (@ep_F F n m) es)) (Some (map (@ep_Q F n m) es)) s' = Ok r.
Proof.
move=> F f1 f2 f3 n m l s es pP hB ha hi gs hF ne EO.
have [s' [bs [[eb e1 _] ep]]] := smoother_core (pd_psd pP) hB ha hi gs ne.
have hu : List.Forall (fun P => P \in unitmx) (preds (kf_x s : 'cV[F]_n, kf_P s : 'M[F]_n) es).
  have : pd (kf_x s : 'cV[F]_n, kf_P s : 'M[F]_n).2 by [].
  move: (_, _) => s0 {pP hi ne eb e1 ep}; elim: es s0 gs hF => [|e es IH] s0 //=.
  move=> /List.Forall_cons_iff [g ges] /List.Forall_cons_iff [u us] pP.
  have pp : pd (Ppred e s0.2).
    rewrite PpredE; apply: pdD; [exact: pd_congr|exact: g.1].
  apply/List.Forall_cons_iff; split; first exact: pd_unit.
  apply: IH => //; rewrite /post; case: (ep_z e) => [z|] //=; exact: pd_Pup pp g.2.
have [r er] := e1.2 ltac:(
  move=> k /andP [_ hk]; rewrite [map _ bs]ep; move/List.Forall_forall: hu; apply;
  have hk' : (k < size (preds (kf_x s : 'cV[F]_n, kf_P s : 'M[F]_n) es))%N by [rewrite preds_size];
  have [x hx] := nth_error_ex hk';
  have -> : nth 0 (preds (kf_x s : 'cV[F]_n, kf_P s : 'M[F]_n) es) k = x by
    [elim: (preds _ _) k hx {hk hk'} => [|y ys IH] [|k] //= => [[]|/IH]];
  exact: List.nth_error_In hx).
by exists s', bs, r.
Qed.
Print Assumptions C80_returns.

(** ** The law of a kept state of a random target *)
Section Kept.
Variable F : realFieldType.
Variables (fsqrt fexp flog : F -> F).
Notation EO := (exactO fsqrt fexp flog).
Variables n m l : nat.
Notation kf := (kf EO n m l).
Variables (T : finType) (p : T -> F).
Notation event := (event fsqrt fexp flog n m l T).
Notation joint := (joint F n T).
Notation past := (past F n T).
Notation E := (mean p).
Notation cross := (cross p).
Variable s : kf.
Notation exactly := (fun k => @eq 'M[F]_k).
Variable K : T -> 'cV[F]_n.

Record kept (es : list event) (q : past) (X : T -> 'cV[F]_n) : Prop := Kept {
  ke_mo : moments p es (p_j q) X;
  ke_m : E (fun t => K t - p_m q) = 0;
  ke_P : cross (fun t => K t - p_m q) (fun t => K t - p_m q) = p_P q;
  ke_X : cross (fun t => K t - p_m q) (fun t => X t - j_mx (p_j q)) = p_X q;
  ke_Z : cross (fun t => K t - p_m q) (fun t => j_z (p_j q) t - j_mz (p_j q)) = p_Z q;
  ke_u : uncorr p (fun t => K t - p_m q) es }.

Lemma past_joint os (q : past) : p_j (past_run s os q) = joint_run s os (p_j q).
Proof. by elim: os q => [|[u B A Q|z R H|R H] os IH] q //=; rewrite IH. Qed.

Lemma kept_step e es q X : kept (e :: es) q X -> white p exactly s (e :: es) ->
  kept es (past_run s (obs_of s [:: e] X) q) (fun t => truth s t [:: e] (X t)).
Proof.
move=> [mo km kP kX kZ ku] hw.
have mo' : moments p es (p_j (past_run s (obs_of s [:: e] X) q)) (fun t => truth s t [:: e] (X t)).
  by rewrite past_joint; exact: moments_step.
case: e mo hw ku mo' => [u B A Q w|R H v|] mo hw ku mo'; last by split.
- case: ku => ku1 ku2; split=> //.
  rewrite [past_run _ _ _]/= [p_m _]/= [p_X _]/=.
  set A0 := opt_or (kf_F s : 'M[F]_n) A; set b := input s B u.
  have hX t : A0 *m X t + b + w t - (A0 *m j_mx (p_j q) + b) = A0 *m (X t - j_mx (p_j q)) + w t by mxring.
  by rewrite (cross_ext _ (fun _ => erefl) hX) crossDr crossMr kX ku1 addr0.
- case: ku => ku1 ku2; split=> //.
  rewrite [past_run _ _ _]/= [p_m _]/= [p_Z _]/=.
  pose y t := Hm s H *m (X t - j_mx (p_j q)) + v t.
  have hZ t : col_mx (j_z (p_j q) t) (Hm s H *m X t + v t) - col_mx (j_mz (p_j q)) (Hm s H *m j_mx (p_j q)) =
      col_mx (j_z (p_j q) t - j_mz (p_j q)) (y t).
    by rewrite opp_col_mx add_col_mx /y; congr col_mx; mxring.
  rewrite (cross_ext _ (fun _ => erefl) hZ) cross_row kZ; congr row_mx.
  by rewrite /y crossDr crossMr kX ku1 addr0.
Qed.

Lemma kept_run es q X : kept es q X -> white p exactly s es ->
  kept [::] (past_run s (obs_of s es X) q) (fun t => truth s t es (X t)).
Proof.
elim: es q X => [|e es IH] q X ke hw //.
have := IH _ _ (kept_step ke hw) (white_tail hw).
by case: e {ke hw} => [u B A Q w|R H v|].
Qed.
End Kept.

(** The law used above is the law of the target: keep the state after the events [es], let the
    events [es'] follow.  The kept state, the final state and the whole record then have the means,
    covariances and cross covariances of [past_run]. *)
Theorem C80_record_law : forall (F : realFieldType) (fsqrt fexp flog : F -> F) (n m l : nat)
    (T : finType) (p : T -> F) (s : kf (exactO fsqrt fexp flog) n m l)
    (es es' : list (event fsqrt fexp flog n m l T)) (X : T -> 'cV[F]_n),
  starts p s (fun k => @eq 'M[F]_k) (es ++ es') X -> white p (fun k => @eq 'M[F]_k) s (es ++ es') ->
  let K t := truth s t es (X t) in
  let now := joint_run s (obs_of s es X) (joint_start T s) in
  let q := past_run s (obs_of s es' K) (past_of now) in
  let dk t := K t - p_m q in
  let dx t := truth s t es' (K t) - j_mx (p_j q) in
  let dz t := j_z (p_j q) t - j_mz (p_j q) in
  [/\ mean p dk = 0, cross p dk dk = p_P q, cross p dk dx = p_X q, cross p dk dz = p_Z q &
      mean p dz = 0 /\ cross p dz dz = j_V (p_j q)].
Proof.
move=> F fsqrt fexp flog n m l T p s es es' X [h1 h2 h3] hw K now q dk dx dz.
have mo : moments p (es ++ es') (joint_start T s) X.
  split=> //; try by apply/matrixP => -[].
  - by apply/matrixP => i [].
  - by elim: (es ++ es') {h3 hw} => [|[u B A Q w|R H v|] es1 IH] //=; split=> //; apply/matrixP => -[].
have mo1 := moments_run mo hw.
have hw1 : white p (fun k => @eq 'M[F]_k) s es'.
  by elim: es hw {h3 mo mo1 K now q dk dx dz} => [|e es IH] //= /white_tail.
have ke : kept p K es' (past_of now) K by case: mo1.
have [[m1 m2 m3 m4 m5 m6 m7] k1 k2 k3 k4 k5] := kept_run ke hw1.
by split=> //; split.
Qed.
Print Assumptions C80_record_law.

(** A new filter, a track with constant velocity, the rank one process noise of
    Q_discrete_white_noise(2, dt = 1, var = 1), position measured, the second measurement missing. *)
Notation Qf := [realFieldType of rat].
Notation QE := (exactO (id : rat -> rat) id id).
Definition cv_g : 'M[rat]_(2, 1) := \matrix_(i, j) (if i == 0 then 2%:R^-1 else 1).
Definition cv_epoch (z : option 'cV[rat]_1) : epoch Qf 2 1 :=
  @Epoch Qf 2 1 (1%:M + delta_mx 0 1) (cv_g *m cv_g^T) (delta_mx 0 0) 1%:M z.
Example C80_applies :
  let s : kf QE 2 1 0 := @kf_init QE 2 1 0 (1 : rat) (@mx_inv Qf 1) in
  let es := [:: cv_epoch (Some (const_mx 3%:R)); cv_epoch None; cv_epoch (Some (const_mx 5%:R))] in
  [/\ pd (kf_P s : 'M[rat]_2), kf_B s = None, kf_alpha_sq s = (1 : rat), inv_exact s &
      [/\ List.Forall (@mild_epoch Qf 2 1) es, List.Forall (fun e => ep_F e \in unitmx) es, es <> [::] &
          ~ pd (cv_g *m cv_g^T)]].
Proof.
have me z : mild_epoch (cv_epoch z) by split; [exact: psd_gram|exact: pd1].
have uF z : ep_F (cv_epoch z) \in unitmx.
  have h : (1%:M + delta_mx 0 1 : 'M[rat]_2) *m (1%:M - delta_mx 0 1) = 1%:M.
    rewrite mulmxDl mul1mx mulmxBr mulmx1 mul_delta_mx_0 // subr0; zmod.
  by have [] := mulmx1_unit h.
split=> //; first exact: pd1.
split; [by repeat (apply: List.Forall_cons; first exact: me)|by repeat (apply: List.Forall_cons; first exact: uF)|by []|].
move=> [_ h]; pose v : 'cV[rat]_2 := \matrix_(i, j) (if i == 0 then 2%:R else - 1).
have v0 : v != 0 by apply/eqP => /matrixP /(_ 0 0); rewrite !mxE.
have := h v v0; rewrite /qf -mulmxA.
have -> : cv_g *m cv_g^T *m v = 0.
  rewrite -mulmxA (_ : cv_g^T *m v = 0) ?mulmx0 //; apply/matrixP => i j.
  by rewrite !mxE !big_ord_recl big_ord0 !mxE.
by rewrite mulmx0 mxE ltxx.
Qed.
