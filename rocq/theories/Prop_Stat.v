(** * C70: what the reported covariance means, over whole histories. *)
From mathcomp Require Import all_ssreflect all_algebra.
From Verif Require Import Ops Exact Spec ZmodTac LinAlg Model_KF Spec_KF Spec_KF_exact Spec_KF_order Spec_Stat
  Proof_KF Proof_KF_exact Proof_KF_order Prop_KF_exact.
Set Implicit Arguments.
Unset Strict Implicit.
Unset Printing Implicit Defensive.
Import Order.TTheory GRing.Theory Num.Theory.
Local Open Scope ring_scope.

Opaque kf_update kf_update_correlated.

Section Stat.
Variable F : realFieldType.
Variables (fsqrt fexp flog : F -> F).
Notation EO := (exactO fsqrt fexp flog).
Variables n m l : nat.
Notation kf := (kf EO n m l).
Notation kf_call := (kf_call EO n m l).
Variables (T : finType) (p : T -> F).
Notation event := (event fsqrt fexp flog n m l T).
Notation E := (mean p).
Notation cross := (cross p).

Lemma mean_ext a b (f g : T -> 'M[F]_(a,b)) : f =1 g -> E f = E g.
Proof. by move=> h; apply: eq_bigr => t _; rewrite h. Qed.
Lemma meanD a b (f g : T -> 'M[F]_(a,b)) : E (fun t => f t + g t) = E f + E g.
Proof. by rewrite /mean -big_split; apply: eq_bigr => t _; rewrite scalerDr. Qed.
Lemma meanN a b (f : T -> 'M[F]_(a,b)) : E (fun t => - f t) = - E f.
Proof. by rewrite /mean -sumrN; apply: eq_bigr => t _; rewrite scalerN. Qed.
Lemma meanMl a b c (A : 'M[F]_(a,b)) (f : T -> 'M[F]_(b,c)) : E (fun t => A *m f t) = A *m E f.
Proof. by rewrite /mean mulmx_sumr; apply: eq_bigr => t _; rewrite scalemxAr. Qed.
Lemma meanMr a b c (A : 'M[F]_(b,c)) (f : T -> 'M[F]_(a,b)) : E (fun t => f t *m A) = E f *m A.
Proof. by rewrite /mean mulmx_suml; apply: eq_bigr => t _; rewrite scalemxAl. Qed.
Lemma mean_tr a b (f : T -> 'M[F]_(a,b)) : (E f)^T = E (fun t => (f t)^T).
Proof. by rewrite /mean (raddf_sum (@trmx_additive _ _ _)); apply: eq_bigr => t _ /=; rewrite linearZ. Qed.

Lemma cross_ext a b (f f' : T -> 'cV[F]_a) (g g' : T -> 'cV[F]_b) : f =1 f' -> g =1 g' -> cross f g = cross f' g'.
Proof. by move=> h k; apply: mean_ext => t; rewrite h k. Qed.
Lemma crossDl a b (f g : T -> 'cV[F]_a) (h : T -> 'cV[F]_b) : cross (fun t => f t + g t) h = cross f h + cross g h.
Proof. by rewrite /cross -meanD; apply: mean_ext => t; rewrite mulmxDl. Qed.
Lemma crossNl a b (f : T -> 'cV[F]_a) (h : T -> 'cV[F]_b) : cross (fun t => - f t) h = - cross f h.
Proof. by rewrite /cross -meanN; apply: mean_ext => t; rewrite mulNmx. Qed.
Lemma crossMl a b c (A : 'M[F]_(c,a)) (f : T -> 'cV[F]_a) (h : T -> 'cV[F]_b) : cross (fun t => A *m f t) h = A *m cross f h.
Proof. by rewrite /cross -meanMl; apply: mean_ext => t; rewrite mulmxA. Qed.
Lemma crossC a b (f : T -> 'cV[F]_a) (g : T -> 'cV[F]_b) : (cross f g)^T = cross g f.
Proof. by rewrite /cross mean_tr; apply: mean_ext => t; rewrite trmx_mul trmxK. Qed.
Lemma crossDr a b (f g : T -> 'cV[F]_a) (h : T -> 'cV[F]_b) : cross h (fun t => f t + g t) = cross h f + cross h g.
Proof. by rewrite -crossC crossDl linearD /= !crossC. Qed.
Lemma crossNr a b (f : T -> 'cV[F]_a) (h : T -> 'cV[F]_b) : cross h (fun t => - f t) = - cross h f.
Proof. by rewrite -crossC crossNl linearN /= !crossC. Qed.
Lemma crossMr a b c (A : 'M[F]_(c,a)) (f : T -> 'cV[F]_a) (h : T -> 'cV[F]_b) : cross h (fun t => A *m f t) = cross h f *m A^T.
Proof. by rewrite -crossC crossMl trmx_mul !crossC. Qed.
Lemma crossr_const a b (f : T -> 'cV[F]_a) (c : 'cV[F]_b) : cross f (fun=> c) = E f *m c^T.
Proof. by rewrite /cross meanMr. Qed.
Lemma crossl_const a b (f : T -> 'cV[F]_a) (c : 'cV[F]_b) : cross (fun=> c) f = c *m (E f)^T.
Proof. by rewrite -crossC crossr_const trmx_mul trmxK. Qed.

Lemma psd_cross a (f : T -> 'cV[F]_a) : (forall t, 0 <= p t) -> psd (cross f f).
Proof.
move=> hp; split; first exact: crossC.
move=> v; rewrite /qf /cross -meanMl -meanMr /mean summxE.
apply: sumr_ge0 => t _; rewrite mxE mulr_ge0 //.
have -> : v^T *m (f t *m (f t)^T) *m v = (v^T *m f t) *m (v^T *m f t)^T by rewrite trmx_mul trmxK !mulmxA.
by move: (v^T *m f t) => w; rewrite mxE big_ord1 [w^T _ _]mxE -expr2 sqr_ge0.
Qed.

(** Uncorrelatedness is preserved by linear combinations. *)
Lemma uncorr_ext a (f g : T -> 'cV[F]_a) (es : list event) : f =1 g -> uncorr p f es -> uncorr p g es.
Proof.
move=> h; elim: es => [|[u B A Q w|R H v|] es IH] //= [h1 h2]; split; try exact: IH;
  by rewrite -h1; apply: cross_ext => // t; rewrite h.
Qed.
Lemma uncorrD a (f g : T -> 'cV[F]_a) (es : list event) : uncorr p f es -> uncorr p g es -> uncorr p (fun t => f t + g t) es.
Proof.
elim: es => [|[u B A Q w|R H v|] es IH] //= [h1 h2] [h3 h4]; split; try exact: IH; by rewrite crossDl h1 h3 addr0.
Qed.
Lemma uncorrN a (f : T -> 'cV[F]_a) (es : list event) : uncorr p f es -> uncorr p (fun t => - f t) es.
Proof. elim: es => [|[u B A Q w|R H v|] es IH] //= [h1 h2]; split; try exact: IH; by rewrite crossNl h1 oppr0. Qed.
Lemma uncorrM a b (A : 'M[F]_(b,a)) (f : T -> 'cV[F]_a) (es : list event) : uncorr p f es -> uncorr p (fun t => A *m f t) es.
Proof. elim: es => [|[u B A' Q w|R H v|] es IH] //= [h1 h2]; split; try exact: IH; by rewrite crossMl h1 mulmx0. Qed.
Lemma uncorr_const rel (s : kf) a (c : 'cV[F]_a) (es : list event) : white p rel s es -> uncorr p (fun=> c) es.
Proof.
elim: es => [|[u B A Q w|R H v|] es IH] //=.
- by case=> h _ _ hw; split; [rewrite crossl_const h trmx0 mulmx0|exact: IH].
- by case=> h _ _ hw; split; [rewrite crossl_const h trmx0 mulmx0|exact: IH].
Qed.

(** ** One step of all outcomes together *)
(** The filters of all outcomes share everything but the estimate. *)
Record together (s : kf) (P : 'M[F]_n) (st : T -> kf) : Prop := Together {
  tg_P : forall t, kf_P (st t) = P;
  tg_F : forall t, kf_F (st t) = kf_F s; tg_Q : forall t, kf_Q (st t) = kf_Q s;
  tg_B : forall t, kf_B (st t) = kf_B s; tg_H : forall t, kf_H (st t) = kf_H s;
  tg_R : forall t, kf_R (st t) = kf_R s; tg_a : forall t, kf_alpha_sq (st t) = kf_alpha_sq s;
  tg_i : forall t, inv_exact (st t) }.

Lemma together_step s P st P' (c : T -> kf_call) : together s P st ->
  (forall t, kf_alpha_sq (fst (kf_step (c t) (st t))) = kf_alpha_sq (st t)) ->
  (forall t, kf_P (fst (kf_step (c t) (st t))) = P') ->
  together s P' (fun t => fst (kf_step (c t) (st t))).
Proof.
move=> tg ha hP; split=> t; last first.
- by move=> A; have [_ [_ [_ [_ [_ [_ ->]]]]]] := @step_config EO n m l (c t) (st t); exact: tg_i tg t A.
- by rewrite ha (tg_a tg).
- by have [_ [_ [_ [_ [-> _]]]]] := @step_config EO n m l (c t) (st t); exact: tg_R tg t.
- by have [_ [_ [_ [-> _]]]] := @step_config EO n m l (c t) (st t); exact: tg_H tg t.
- by have [_ [_ [-> _]]] := @step_config EO n m l (c t) (st t); exact: tg_B tg t.
- by have [_ [-> _]] := @step_config EO n m l (c t) (st t); exact: tg_Q tg t.
- by have [-> _] := @step_config EO n m l (c t) (st t); exact: tg_F tg t.
- exact: hP.
Qed.

Definition pred_cov (s : kf) A Q (P : 'M[F]_n) : 'M[F]_n :=
  let A0 := opt_or (kf_F s : 'M[F]_n) A in
  (kf_alpha_sq s : F) *: (A0 *m P *m A0^T) + sm_or (o := EO) (kf_Q s) Q.

Lemma predict_step s P st u B A Q : together s P st ->
  let st' t := fst (kf_step (@CPredict EO n m l u B A Q) (st t)) in
  together s (pred_cov s A Q P) st' /\
  (forall t, kf_x (st' t) = opt_or (kf_F s : 'M[F]_n) A *m kf_x (st t) + input s B u).
Proof.
move=> tg st'; split.
  apply: (together_step tg) => t; rewrite (@step_predictE EO n m l) //= /pred_cov.
  by rewrite (tg_P tg) (tg_F tg) (tg_Q tg) (tg_a tg).
move=> t; rewrite /st' (@step_predictE EO n m l) /= /apply_control /B_or /input (tg_F tg) (tg_B tg) {st'}.
by case: B => [B|] //=; [|case: (kf_B s) => [B|]]; case: u => [u|] /=; rewrite ?addr0.
Qed.

Lemma miss_step s P st : together s P st ->
  let st' t := fst (kf_step (@CUpdate EO n m l None None None) (st t)) in
  together s P st' /\ (forall t, kf_x (st' t) = kf_x (st t)).
Proof.
Transparent kf_update.
by move=> tg st'; split=> [|t]; first by apply: (together_step tg) => t //; exact: tg_P tg t.
Opaque kf_update.
Qed.

Lemma update_alpha z R H (s : kf) : kf_alpha_sq (fst (kf_step (CUpdate z R H) s)) = kf_alpha_sq s.
Proof. by case: (@step_alpha EO n m l (CUpdate z R H) s) => // -[a []]. Qed.

Lemma update_step s P st R H (z : T -> 'cV[F]_m) : together s P st ->
  let st' t := fst (kf_step (@CUpdate EO n m l (Some (z t)) R H) (st t)) in
  let S := Smx P (Hm s H) (Rm s R) in let K := Kmx P (Hm s H) (Rm s R) in
  (exists t, snd (kf_step (@CUpdate EO n m l (Some (z t)) R H) (st t)) = None) ->
  [/\ S \in unitmx, together s (Jmx P (Hm s H) (Rm s R) K) st',
      forall t, kf_x (st' t) = kf_x (st t) + K *m (z t - Hm s H *m kf_x (st t)),
      forall t, kf_y (st' t) = z t - Hm s H *m kf_x (st t) & forall t, kf_S (st' t) = S].
Proof.
move=> tg st' S K [t0 hok].
have eH t : Hm (st t) H = Hm s H by rewrite /Hm (tg_H tg).
have eR t : Rm (st t) R = Rm s R by rewrite /Rm (tg_R tg).
have eS t : innov_cov (st t) R H = S by rewrite /innov_cov eH eR (tg_P tg).
have uS : S \in unitmx.
  move: hok; rewrite (@step_updateE EO n m l) => hok; rewrite -(eS t0); apply/negPn/negP => nu.
  have e0 : kf_inv (st t0) (innov_cov (st t0) R H : M EO m m) = None.
    by rewrite (tg_i tg t0 (innov_cov (st t0) R H)) /mx_inv (negbTE nu).
  by rewrite (@update_fails EO n m l _ _ _ _ e0) in hok.
have h t := update_exact (z t) (tg_i tg t) (etrans (congr1 (fun S => S \in unitmx) (eS t)) uS).
split=> //.
- apply: (together_step tg) => t; first exact: update_alpha.
  by rewrite (@step_updateE EO n m l); have [_ _ _ _ [_ _ ->]] := h t; rewrite eH eR (tg_P tg).
- by move=> t; rewrite /st' (@step_updateE EO n m l); have [_ _ _ _ [_ -> _]] := h t; rewrite eH eR (tg_P tg).
- by move=> t; rewrite /st' (@step_updateE EO n m l); have [_ -> _ _ _] := h t; rewrite eH.
- by move=> t; rewrite /st' (@step_updateE EO n m l); have [_ _ -> _ _] := h t; rewrite eS.
Qed.
(** ** Exact models *)
Section ExactModel.
Variable s : kf.
Hypothesis alpha1 : kf_alpha_sq s = 1 :> F.
Notation exactly := (fun k => @eq 'M[F]_k).

(** What holds after some events, [es] being still to come. *)
Record exact_inv (es : list event) (zs : list (T -> 'cV[F]_m)) (P : 'M[F]_n) (st : T -> kf) (X : T -> 'cV[F]_n) : Prop := ExactInv {
  ei_tg : together s P st;
  ei_mean : E (fun t => X t - kf_x (st t)) = 0;
  ei_cov : cross (fun t => X t - kf_x (st t)) (fun t => X t - kf_x (st t)) = P;
  ei_x : cross (fun t => X t - kf_x (st t)) (fun t => kf_x (st t) : 'cV[F]_n) = 0;
  ei_z : forall z, List.In z zs -> cross (fun t => X t - kf_x (st t)) z = 0;
  ei_ue : uncorr p (fun t => X t - kf_x (st t)) es;
  ei_ux : uncorr p (fun t => kf_x (st t) : 'cV[F]_n) es;
  ei_uz : forall z, List.In z zs -> uncorr p z es }.

Lemma exact_move u B A Q w es zs P st X :
  exact_inv (Move u B A Q w :: es) zs P st X ->
  white p exactly s (Move u B A Q w :: es) ->
  exact_inv es zs (pred_cov s A Q P) (fun t => fst (kf_step (@CPredict EO n m l u B A Q) (st t)))
    (fun t => opt_or (kf_F s : 'M[F]_n) A *m X t + input s B u + w t).
Proof.
case=> tg e0 eP ex ez ue ux uz /= [w0 wQ uw ww].
have [tg' hx] := predict_step u B A Q tg; cbv zeta in tg', hx; move: tg' hx.
set st' := fun t => fst (kf_step _ _) => tg' hx.
set A0 := opt_or _ _ in hx *; set b := input s B u in hx *.
set e := fun t => X t - kf_x (st t) in e0 eP ex ez ue.
have he t : A0 *m X t + b + w t - kf_x (st' t) = A0 *m e t + w t by rewrite hx /e mulmxBr; zmod.
have b0 a (f : T -> 'cV[F]_a) : E f = 0 -> cross f (fun=> b) = 0 by move=> h; rewrite crossr_const h mul0mx.
case: ue => ue1 ue2; case: ux => ux1 ux2.
have me' : E (fun t => A0 *m e t + w t) = 0 by rewrite meanD meanMl e0 mulmx0 add0r.
split; first exact: tg'.
- by rewrite (mean_ext he).
- rewrite (cross_ext he he) crossDl !crossDr !crossMl !crossMr eP ue1 -(crossC e w) ue1 wQ.
  by rewrite /pred_cov alpha1 scale1r trmx0 !mulmx0 mul0mx addr0 add0r mulmxA.
- rewrite (cross_ext he hx) crossDr b0 // addr0 crossMr crossDl crossMl ex -(crossC (fun t => kf_x (st t) : 'cV[F]_n) w) ux1.
  by rewrite trmx0 mulmx0 addr0 mul0mx.
- move=> z hz; rewrite (cross_ext he (fun _ => erefl)) crossDl crossMl (ez z hz) -(crossC z w).
  by have [-> _] := uz z hz; rewrite trmx0 mulmx0 addr0.
- apply: (uncorr_ext (fun t => esym (he t))); apply: uncorrD => //; exact: uncorrM.
- apply: (uncorr_ext (fun t => esym (hx t))); apply: uncorrD; first exact: uncorrM.
  exact: uncorr_const ww.
- by move=> z /uz [].
Qed.

Lemma exact_look R H v es zs P st X :
  exact_inv (Look R H v :: es) zs P st X ->
  white p exactly s (Look R H v :: es) ->
  let z t := Hm s H *m X t + v t in
  let c t := @CUpdate EO n m l (Some (z t)) R H in
  (exists t, snd (kf_step (c t) (st t)) = None) ->
  exact_inv es (z :: zs) (Jmx P (Hm s H) (Rm s R) (Kmx P (Hm s H) (Rm s R))) (fun t => fst (kf_step (c t) (st t))) X /\
  let y t := kf_y (fst (kf_step (c t) (st t))) : 'cV[F]_m in
  [/\ E y = 0, forall t, cross y y = kf_S (fst (kf_step (c t) (st t))) & forall z, List.In z zs -> cross y z = 0].
Proof.
case=> tg e0 eP ex ez ue ux uz /= [v0 vR uv ww] hok.
have [uS tg' hx hy hS] := update_step tg hok; cbv zeta in uS, tg', hx, hy, hS.
move: uS tg' hx hy hS.
set z := fun t => Hm s H *m X t + v t; set K := Kmx _ _ _; set S := Smx _ _ _.
set st' := fun t => fst (kf_step _ _) => uS tg' hx hy hS.
set e := fun t => X t - kf_x (st t) in e0 eP ex ez ue.
case: ue => ue1 ue2; case: ux => ux1 ux2.
have zE t : z t - Hm s H *m kf_x (st t) = Hm s H *m e t + v t by rewrite /z /e mulmxBr; zmod.
pose y t := Hm s H *m e t + v t.
pose e' t := e t - K *m y t.
have he t : X t - kf_x (st' t) = e' t by rewrite hx zE /e' /y /e; zmod.
have he2 t : X t - kf_x (st' t) = (1%:M - K *m Hm s H) *m e t + (- K) *m v t.
  by rewrite he /e' /y mulmxDr mulmxBl mul1mx mulNmx mulmxA; zmod.
have hy' : (fun t => kf_y (st' t) : 'cV[F]_m) =1 y by move=> t; rewrite hy zE.
have cve : cross v e = 0 by rewrite -crossC ue1 trmx0.
have cey : cross e y = P *m (Hm s H)^T by rewrite /y crossDr crossMr eP ue1 addr0.
have cyy : cross y y = S.
  by rewrite {1}/y crossDl crossMl cey /y crossDr crossMr cve mul0mx add0r vR.
have xv : cross v (fun t => kf_x (st t) : 'cV[F]_n) = 0 by rewrite -crossC ux1 trmx0.
have cyx : cross y (fun t => kf_x (st t) : 'cV[F]_n) = 0 by rewrite /y crossDl crossMl ex mulmx0 add0r xv.
have my : E y = 0 by rewrite /y meanD meanMl e0 mulmx0 add0r v0.
have ce' a (g : T -> 'cV[F]_a) : cross e' g = cross e g - K *m cross y g.
  by rewrite /e' crossDl crossNl crossMl.
have cyz z' : List.In z' zs -> cross y z' = 0.
  move=> hz; rewrite /y crossDl crossMl ez // mulmx0 add0r -crossC.
  by have [-> _] := uz z' hz; rewrite trmx0.
have ce'y : cross e' y = 0 by rewrite ce' cey cyy /K /Kmx -/S mulmxKV ?subrr.
have ce'x : cross e' (fun t => kf_x (st t) : 'cV[F]_n) = 0 by rewrite ce' ex cyx mulmx0 subr0.
have uy : uncorr p y es by apply: uncorrD => //; exact: uncorrM.
have hz : z =1 (fun t => y t + Hm s H *m kf_x (st t)) by move=> t; rewrite /y -zE; zmod.
have hx' t : kf_x (st' t) = kf_x (st t) + K *m y t by rewrite hx zE.
split; last split.
- split; first exact: tg'.
  + by rewrite (mean_ext he) meanD meanN meanMl e0 my mulmx0 subr0.
  + rewrite (cross_ext he2 he2) crossDl !crossDr !crossMl !crossMr eP ue1 cve vR /Jmx.
    by rewrite linearN /= !mulNmx !mulmxN !mul0mx !mulmx0 ?oppr0 opprK addr0 add0r !mulmxA.
  + by rewrite (cross_ext he hx') crossDr crossMr ce'x ce'y mul0mx addr0.
  + move=> z' /= [<-|hz'].
    * by rewrite (cross_ext he hz) crossDr crossMr ce'x ce'y mul0mx addr0.
    * by rewrite (cross_ext he (fun _ => erefl)) ce' ez // cyz // mulmx0 subr0.
  + apply: (uncorr_ext (fun t => esym (he t))); apply: uncorrD => //; apply: uncorrN; exact: uncorrM.
  + by apply: (uncorr_ext (fun t => esym (hx' t))); apply: uncorrD => //; exact: uncorrM.
  + move=> z' /= [<-|hz'].
    * by apply: (uncorr_ext (fun t => esym (hz t))); apply: uncorrD => //; exact: uncorrM.
    * by have [_] := uz z' hz'.
- by rewrite (mean_ext hy').
- by move=> t; rewrite (cross_ext hy' hy') cyy hS.
- by move=> z' hz'; rewrite (cross_ext hy' (fun _ => erefl)) cyz.
Qed.

Lemma exact_miss es zs P st X : exact_inv (Miss :: es) zs P st X ->
  exact_inv es zs P (fun t => fst (kf_step (@CUpdate EO n m l None None None) (st t))) X.
Proof.
case=> tg e0 eP ex ez ue ux uz.
have [tg' hx] := miss_step tg; cbv zeta in tg', hx; move: tg' hx.
set st' := fun t => fst (kf_step _ _) => tg' hx.
have he t : X t - kf_x (st' t) = X t - kf_x (st t) by rewrite hx.
split; first exact: tg'.
- by rewrite (mean_ext he).
- by rewrite (cross_ext he he).
- by rewrite (cross_ext he hx).
- by move=> z hz; rewrite (cross_ext he (fun _ => erefl)) ez.
- exact: (uncorr_ext (fun t => esym (he t))).
- exact: (uncorr_ext (fun t => esym (hx t))).
- exact: uz.
Qed.

Lemma run_cons c cs (r : kf) : kf_run (c :: cs) r = kf_run cs (fst (kf_step c r)).
Proof. by []. Qed.

Lemma exact_run (t0 : T) es es2 zs P st X : exact_inv (es ++ es2) zs P st X -> white p exactly s (es ++ es2) ->
  (forall t, all_ok (calls s t es (X t)) (st t)) ->
  exists zs' P', (forall st' X', (forall t, st' t = kf_run (calls s t es (X t)) (st t)) ->
      (forall t, X' t = truth s t es (X t)) -> exact_inv es2 zs' P' st' X') /\
    forall z, List.In z zs' <-> List.In z zs \/ List.In z (seen s es X).
Proof.
elim: es zs P st X => [|[u B A Q w|R H v|] es IH] zs P st X h hw hok.
- exists zs, P; split; last by move=> z; split; [left|case].
  move=> st' X' e1 e2; case: h => tg e0 eP ex ez ue ux uz.
  have he t : X' t - kf_x (st' t) = X t - kf_x (st t) by rewrite e1 e2.
  have hx t : kf_x (st' t) = kf_x (st t) by rewrite e1.
  split; last exact uz.
  + by case: tg => *; split=> t; rewrite e1 /kf_run /calls /List.fold_left.
  + rewrite (mean_ext he); exact e0.
  + rewrite (cross_ext he he); exact eP.
  + rewrite (cross_ext he hx); exact ex.
  + by move=> z hz; rewrite (cross_ext he (fun _ => erefl)) ez.
  + exact: (uncorr_ext (fun t => esym (he t))).
  + exact: (uncorr_ext (fun t => esym (hx t))).
- have [_ _ _ hw'] := hw; have h' := exact_move h hw.
  have [zs' [P' [k1 k2]]] := IH _ _ _ _ h' hw' (fun t => proj2 (hok t)).
  exists zs', P'; split; last exact k2.
  move=> st' X' e1 e2; apply: k1 => t; [rewrite e1; exact (run_cons _ _ _)|exact (e2 t)].
- have [_ _ _ hw'] := hw; have [h' _] := exact_look h hw (ex_intro _ t0 (proj1 (hok t0))).
  have [zs' [P' [k1 k2]]] := IH _ _ _ _ h' hw' (fun t => proj2 (hok t)).
  exists zs', P'; split; last first.
    move=> z; apply: iff_trans (k2 z) _.
    by split=> [[[|]|]|[|[|]]] k; [right; left|left|right; right|left; right|left; left|right].
  move=> st' X' e1 e2; apply: k1 => t; [rewrite e1; exact (run_cons _ _ _)|exact (e2 t)].
- have h' := exact_miss h.
  have [zs' [P' [k1 k2]]] := IH _ _ _ _ h' hw (fun t => proj2 (hok t)).
  exists zs', P'; split; last exact k2.
  move=> st' X' e1 e2; apply: k1 => t; [rewrite e1; exact (run_cons _ _ _)|exact (e2 t)].
Qed.

Lemma white_tail rel es es2 : white p rel s (es ++ es2) -> white p rel s es2.
Proof. by elim: es => [|[u B A Q w|R H v|] es IH] //= [_ _ _]. Qed.

Lemma start_inv es X : inv_exact s -> starts p s exactly es X -> white p exactly s es ->
  exact_inv es nil (kf_P s) (fun=> s) X.
Proof.
move=> hi [h1 h2 h3] hw; split=> //.
- by rewrite crossr_const h1 mul0mx.
- exact: uncorr_const hw.
Qed.
End ExactModel.

(** ** Models that exaggerate the noise *)
Section Conservative.
Variable s : kf.
Hypothesis alpha1 : 1 <= (kf_alpha_sq s : F).
Hypothesis p0 : forall t, 0 <= p t.
Notation at_most := (fun k => @mle F k).

Record cons_inv (es : list event) (P : 'M[F]_n) (st : T -> kf) (X : T -> 'cV[F]_n) : Prop := ConsInv {
  ci_tg : together s P st;
  ci_cov : mle (cross (fun t => X t - kf_x (st t)) (fun t => X t - kf_x (st t))) P;
  ci_ue : uncorr p (fun t => X t - kf_x (st t)) es }.

Lemma cons_run (t0 : T) es P st X : cons_inv es P st X -> white p at_most s es ->
  (forall t, all_ok (calls s t es (X t)) (st t)) ->
  exists P', forall st' X', (forall t, st' t = kf_run (calls s t es (X t)) (st t)) ->
      (forall t, X' t = truth s t es (X t)) -> cons_inv nil P' st' X'.
Proof.
elim: es P st X => [|[u B A Q w|R H v|] es IH] P st X h hw hok.
- exists P; move=> st' X' e1 e2; case: h => tg eP ue.
  have he t : X' t - kf_x (st' t) = X t - kf_x (st t) by rewrite e1 e2.
  split=> //.
  + by case: tg => *; split=> t; rewrite e1 /kf_run /calls /List.fold_left.
  + rewrite (cross_ext he he); exact eP.
- case: hw => w0 wQ uw ww; case: h => tg eP [ue1 ue2].
  have pP : psd P by exact: mle_psd (psd_cross _ p0) eP.
  have [tg' hx] := predict_step u B A Q tg; cbv zeta in tg', hx.
  have h' : cons_inv es (pred_cov s A Q P) (fun t => fst (kf_step (@CPredict EO n m l u B A Q) (st t)))
      (fun t => opt_or (kf_F s : 'M[F]_n) A *m X t + input s B u + w t).
    move: tg' hx; set st' := fun t => fst (kf_step _ _) => tg' hx.
    set A0 := opt_or _ _ in hx *; set e := fun t => X t - kf_x (st t) in eP ue1 ue2.
    have he t : A0 *m X t + input s B u + w t - kf_x (st' t) = A0 *m e t + w t by rewrite hx /e mulmxBr; zmod.
    split=> //.
    + rewrite (cross_ext he he) crossDl !crossDr !crossMl !crossMr ue1 -(crossC e w) ue1.
      rewrite trmx0 !mulmx0 mul0mx addr0 add0r mulmxA /pred_cov; apply: mleD => //.
      rewrite -[X in mle X]scale1r; apply: mleZ; [exact: ler01|exact: alpha1|apply: psd_congr; exact: psd_cross|exact: mle_congr].
    + apply: (uncorr_ext (fun t => esym (he t))); apply: uncorrD => //; exact: uncorrM.
  have [P' k1] := IH _ _ _ h' ww (fun t => proj2 (hok t)).
  exists P' => st' X' e1 e2; apply: k1 => t; [rewrite e1; exact (run_cons _ _ _)|exact (e2 t)].
- case: hw => v0 vR uv ww; case: h => tg eP [ue1 ue2].
  have [uS tg' hx _ _] := update_step (z := fun t => Hm s H *m X t + v t) tg (ex_intro _ t0 (proj1 (hok t0))); cbv zeta in uS, tg', hx.
  have h' : cons_inv es (Jmx P (Hm s H) (Rm s R) (Kmx P (Hm s H) (Rm s R)))
      (fun t => fst (kf_step (@CUpdate EO n m l (Some (Hm s H *m X t + v t)) R H) (st t))) X.
    move: tg' hx; set st' := fun t => fst (kf_step _ _); set K := Kmx _ _ _ => tg' hx.
    set e := fun t => X t - kf_x (st t) in eP ue1 ue2.
    have he t : X t - kf_x (st' t) = (1%:M - K *m Hm s H) *m e t + (- K) *m v t.
      by rewrite hx /e mulNmx mulmxBl mul1mx !mulmxBr !mulmxDr !mulmxA; zmod.
    have cve : cross v e = 0 by rewrite -crossC ue1 trmx0.
    split=> //.
    + rewrite (cross_ext he he) crossDl !crossDr !crossMl !crossMr ue1 cve /Jmx.
      rewrite linearN /= !mulNmx !mulmxN !mul0mx !mulmx0 ?oppr0 opprK addr0 add0r !mulmxA.
      by apply: mleD; exact: mle_congr.
    + apply: (uncorr_ext (fun t => esym (he t))); apply: uncorrD; exact: uncorrM.
  have [P' k1] := IH _ _ _ h' ww (fun t => proj2 (hok t)).
  exists P' => st' X' e1 e2; apply: k1 => t; [rewrite e1; exact (run_cons _ _ _)|exact (e2 t)].
- case: h => tg eP ue; have [tg' hx] := miss_step tg; cbv zeta in tg', hx.
  have h' : cons_inv es P (fun t => fst (kf_step (@CUpdate EO n m l None None None) (st t))) X.
    move: tg' hx; set st' := fun t => fst (kf_step _ _) => tg' hx.
    have he t : X t - kf_x (st' t) = X t - kf_x (st t) by rewrite hx.
    split; [exact tg'|rewrite (cross_ext he he); exact eP|exact: (uncorr_ext (fun t => esym (he t)))].
  have [P' k1] := IH _ _ _ h' hw (fun t => proj2 (hok t)).
  exists P' => st' X' e1 e2; apply: k1 => t; [rewrite e1; exact (run_cons _ _ _)|exact (e2 t)].
Qed.
End Conservative.

Lemma cross_affine (e : T -> 'cV[F]_n) (c : 'cV[F]_n) (Gs : list 'M[F]_(n, m)) (zs : list (T -> 'cV[F]_m)) : E e = 0 -> (forall z, List.In z zs -> cross e z = 0) ->
  cross e (affine c Gs zs) = 0.
Proof.
move=> e0; elim: Gs zs => [|G Gs IH] [|z zs] h /=; try by rewrite crossr_const e0 mul0mx.
rewrite crossDr crossMr (h z) ?mul0mx ?add0r; last by left.
by apply: IH => z' hz; apply: h; right.
Qed.

Lemma prob_point : probability p -> exists t : T, True.
Proof.
case=> _ h; case: (pickP T) => [t _|h0]; first by exists t.
by move: h; rewrite big1 => [/eqP|t _]; [rewrite eq_sym oner_eq0|have := h0 t].
Qed.
End Stat.

(** When the model is right, the estimate is unbiased and the reported P is the
    covariance of its error, after every history. *)
Theorem C70_reported_covariance : forall (F : realFieldType) (fsqrt fexp flog : F -> F) (n m l : nat)
    (T : finType) (p : T -> F) (s : kf (exactO fsqrt fexp flog) n m l)
    (es : list (event fsqrt fexp flog n m l T)) (X : T -> 'cV[F]_n),
  probability p -> inv_exact s -> kf_alpha_sq s = 1 :> F ->
  starts p s (fun k => @eq 'M[F]_k) es X -> white p (fun k => @eq 'M[F]_k) s es ->
  (forall t, all_ok (calls s t es (X t)) s) ->
  mean p (err s es X) = 0 /\
  forall t, cross p (err s es X) (err s es X) = kf_P (estimate s es X t).
Proof.
move=> F f1 f2 f3 n m l T p s es X hp hi ha hs hw hok.
have [t0 _] := prob_point hp.
have h0 : exact_inv p s (es ++ nil) nil (kf_P s) (fun=> s) X by rewrite cats0; exact: start_inv.
have hw0 : white p (fun k => @eq 'M[F]_k) s (es ++ nil) by rewrite cats0.
have [zs' [P' [k1 _]]] := exact_run ha t0 h0 hw0 hok.
have [tg e0 eP _ _ _ _ _] := k1 (estimate s es X) (fun t => truth s t es (X t)) (fun=> erefl) (fun=> erefl).
by split=> [|t]; [exact e0|rewrite (tg_P tg)].
Qed.
Print Assumptions C70_reported_covariance.

(** The residuals then have mean zero and covariance S, and are uncorrelated with
    every earlier measurement. *)
Theorem C70_residuals_white : forall (F : realFieldType) (fsqrt fexp flog : F -> F) (n m l : nat)
    (T : finType) (p : T -> F) (s : kf (exactO fsqrt fexp flog) n m l)
    (es : list (event fsqrt fexp flog n m l T)) R H v (X : T -> 'cV[F]_n),
  let es' := es ++ [:: Look R H v] in
  probability p -> inv_exact s -> kf_alpha_sq s = 1 :> F ->
  starts p s (fun k => @eq 'M[F]_k) es' X -> white p (fun k => @eq 'M[F]_k) s es' ->
  (forall t, all_ok (calls s t es' (X t)) s) ->
  let y t : 'cV[F]_m := kf_y (estimate s es' X t) in
  [/\ mean p y = 0, forall t, cross p y y = kf_S (estimate s es' X t) &
      forall z, List.In z (seen s es X) -> cross p y z = 0].
Proof.
move=> F f1 f2 f3 n m l T p s es R H v X es' hp hi ha hs hw hok y.
have [t0 _] := prob_point hp.
have h0 : exact_inv p s es' nil (kf_P s) (fun=> s) X by exact: start_inv.
have ecalls t Y : calls s t es' Y = calls s t es Y ++ [:: @CUpdate (exactO f1 f2 f3) n m l (Some (Hm s H *m truth s t es Y + v t)) R H].
  by rewrite /es'; clear; elim: es Y => [|[u B A Q w|R' H' v'|] es IH] Y //=; rewrite IH.
have aok cs ds (r : kf (exactO f1 f2 f3) n m l) : all_ok (cs ++ ds) r -> all_ok cs r /\ all_ok ds (kf_run cs r).
  by elim: cs r => [|c cs IH] r //= [h1 h2]; have [h3 h4] := IH _ h2.
have hok1 t : all_ok (calls s t es (X t)) s by have := hok t; rewrite ecalls => /aok [].
have [zs' [P' [k1 k2]]] := exact_run ha t0 h0 hw hok1.
have h1 := k1 (estimate s es X) (fun t => truth s t es (X t)) (fun=> erefl) (fun=> erefl).
have hok2 : exists t, snd (kf_step (@CUpdate (exactO f1 f2 f3) n m l (Some (Hm s H *m truth s t es (X t) + v t)) R H) (estimate s es X t)) = None.
  by exists t0; have := hok t0; rewrite ecalls => /aok [_ []].
have [_ [y1 y2 y3]] := exact_look h1 (white_tail hw) hok2.
have est t : estimate s es' X t = fst (kf_step (@CUpdate (exactO f1 f2 f3) n m l (Some (Hm s H *m truth s t es (X t) + v t)) R H) (estimate s es X t)).
  by rewrite /estimate ecalls; exact: (List.fold_left_app _ (calls s t es (X t)) [:: _] s).
have hy : y =1 (fun t => kf_y (fst (kf_step (@CUpdate (exactO f1 f2 f3) n m l (Some (Hm s H *m truth s t es (X t) + v t)) R H) (estimate s es X t)))).
  by move=> t; rewrite /y est.
split.
- rewrite (mean_ext p hy); exact y1.
- move=> t; rewrite (cross_ext p hy hy) est; exact (y2 t).
- move=> z hz; rewrite (cross_ext p hy (fun _ => erefl)); apply: y3; apply/k2; by right.
Qed.
Print Assumptions C70_residuals_white.

(** No affine function of the measurements estimates the target better. *)
Theorem C70_best_linear_estimate : forall (F : realFieldType) (fsqrt fexp flog : F -> F) (n m l : nat)
    (T : finType) (p : T -> F) (s : kf (exactO fsqrt fexp flog) n m l)
    (es : list (event fsqrt fexp flog n m l T)) (X : T -> 'cV[F]_n) (c : 'cV[F]_n) (Gs : list 'M[F]_(n, m)),
  probability p -> inv_exact s -> kf_alpha_sq s = 1 :> F ->
  starts p s (fun k => @eq 'M[F]_k) es X -> white p (fun k => @eq 'M[F]_k) s es ->
  (forall t, all_ok (calls s t es (X t)) s) ->
  let other t := truth s t es (X t) - affine c Gs (seen s es X) t in
  forall t, mle (kf_P (estimate s es X t) : 'M[F]_n) (cross p other other).
Proof.
move=> F f1 f2 f3 n m l T p s es X c Gs hp hi ha hs hw hok other t1.
have [t0 _] := prob_point hp.
have h0 : exact_inv p s (es ++ nil) nil (kf_P s) (fun=> s) X by rewrite cats0; exact: start_inv.
have hw0 : white p (fun k => @eq 'M[F]_k) s (es ++ nil) by rewrite cats0.
have [zs' [P' [k1 k2]]] := exact_run ha t0 h0 hw0 hok.
have [tg e0 eP ex ez _ _ _] := k1 (estimate s es X) (fun t => truth s t es (X t)) (fun=> erefl) (fun=> erefl).
set e := fun t => truth s t es (X t) - kf_x (estimate s es X t) in e0 eP ex ez.
pose d t := (kf_x (estimate s es X t) : 'cV[F]_n) - affine c Gs (seen s es X) t.
have ho : other =1 (fun t => e t + d t) by move=> t; rewrite /other /e /d; zmod.
have ced : cross p e d = 0.
  rewrite /d crossDr crossNr ex cross_affine ?subr0 // => z hz; apply: ez; apply/k2; by right.
rewrite (tg_P tg) (cross_ext p ho ho).
clear ex; move: d e ho ced e0 eP ez => d e _ ced _ eP _; rewrite crossDl !crossDr eP ced -(crossC p e d) ced trmx0 addr0 add0r.
rewrite /mle addrC addKr; apply: psd_cross; by case: hp.
Qed.
Print Assumptions C70_best_linear_estimate.

(** When the model exaggerates the noise (or alpha > 1), the reported P bounds the
    covariance of the error. *)
Theorem C70_conservative : forall (F : realFieldType) (fsqrt fexp flog : F -> F) (n m l : nat)
    (T : finType) (p : T -> F) (s : kf (exactO fsqrt fexp flog) n m l)
    (es : list (event fsqrt fexp flog n m l T)) (X : T -> 'cV[F]_n),
  probability p -> inv_exact s -> 1 <= (kf_alpha_sq s : F) ->
  starts p s (fun k => @mle F k) es X -> white p (fun k => @mle F k) s es ->
  (forall t, all_ok (calls s t es (X t)) s) ->
  forall t, mle (cross p (err s es X) (err s es X)) (kf_P (estimate s es X t)).
Proof.
move=> F f1 f2 f3 n m l T p s es X hp hi ha [_ hs hu] hw hok t1.
have [t0 _] := prob_point hp.
have h0 : cons_inv p s es (kf_P s) (fun=> s) X by split.
have [P' k1] := cons_run ha (proj1 hp) t0 h0 hw hok.
have [tg eP _] := k1 (estimate s es X) (fun t => truth s t es (X t)) (fun=> erefl) (fun=> erefl).
rewrite (tg_P tg); exact eP.
Qed.
Print Assumptions C70_conservative.

(** Prior error, process noise and measurement noise +-1, independent; a prediction,
    a missing measurement and a measurement. *)
Definition coins : finType := [finType of bool * bool * bool].
Definition fair : coins -> rat := fun=> 1 / 8%:R.
Definition ex_history : list (event (F := [realFieldType of rat]) id id id 1 1 0 coins) :=
  [:: Move None None None None (fun t => sgb t.1.2); Miss; Look None None (fun t => sgb t.2)].
Definition ex_start (t : coins) : 'cV[rat]_1 := sgb t.1.1.

Lemma mean_coins a b (f : coins -> 'M[rat]_(a, b)) :
  mean fair f = (1 / 8%:R) *: (\sum_(x : bool) \sum_(y : bool) \sum_(z : bool) f (x, y, z)).
Proof.
rewrite /mean -scaler_sumr; congr (_ *: _).
rewrite (pair_bigA _ (fun x y => \sum_(z : bool) f (x, y, z))) /=.
by rewrite (pair_bigA _ (fun (x : bool * bool) z => f (x.1, x.2, z))) /=; apply: eq_bigr => -[[]].
Qed.

Lemma sq b : sgb b *m (sgb b)^T = 1%:M.
Proof. by case: b; rewrite /sgb ?mulNmx ?raddfN /= ?mulmxN ?opprK trmx1 mulmx1. Qed.
Lemma tN : sgb false = - sgb true. Proof. by []. Qed.
Lemma trN (A : 'cV[rat]_1) : (- A)^T = - A^T. Proof. by rewrite raddfN. Qed.
Opaque sgb.
Transparent kf_update.

Example C70_applies :
  let p := fair in let s := exb in let es := ex_history in let X := ex_start in
  [/\ probability p, inv_exact s, kf_alpha_sq s = 1 :> rat, starts p s (fun k => @eq 'M[rat]_k) es X &
      white p (fun k => @eq 'M[rat]_k) s es /\ forall t, all_ok (calls s t es (X t)) s].
Proof.
have e8 : (1 / 8%:R : rat) *: ((1%:M : 'M[rat]_1) *+ 8) = 1%:M.
  by rewrite -scaler_nat scalerA -[RHS]scale1r; congr (_ *: _).
have one8 : \sum_(x : bool) \sum_(y : bool) \sum_(z : bool) (1%:M : 'M[rat]_1) = 1%:M *+ 8.
  by rewrite !big_bool /= !mulrS !addrA ?addr0.
have eX t : ex_start t - kf_x exb = sgb t.1.1 by rewrite -[kf_x exb]/(0 : 'cV[rat]_1) subr0.
split.
- split=> [t|] //; by rewrite /fair sumr_const !card_prod !card_bool.
- by [].
- by [].
- split.
  + by rewrite (mean_ext _ eX) mean_coins !big_bool /= ?tN !addrA; rewrite [X in _ *: X](_ : _ = 0) ?scaler0 //; zmod.
  + rewrite (cross_ext _ eX eX) /cross mean_coins; under eq_bigr do under eq_bigr do under eq_bigr do rewrite sq.
    by rewrite one8 e8.
  + split; [|split=> //]; rewrite (cross_ext _ eX (fun _ => erefl)) /cross mean_coins !big_bool /= ?tN !(trN, mulNmx, mulmxN, opprK);
    by rewrite [X in _ *: X](_ : _ = 0) ?scaler0 //; zmod.
- split; last first.
    move=> t; split; first by [].
    split; first by [].
    split; last by [].
    pose s1 := fst (kf_step (@CUpdate RO 1 1 0 None None None) (fst (kf_step (@CPredict RO 1 1 0 None None None None) exb))).
    have uS : innov_cov s1 None None \in unitmx.
      have -> : innov_cov s1 None None = 1%:M *m ((1 *: (1%:M *m 1%:M *m 1%:M^T) + 1%:M) *m 1%:M^T) + (1%:M : 'M[rat]_1) by [].
      by rewrite trmx1 !mulmx1 mul1mx scale1r -!raddfD unitmxE det_scalar.
    have hi : inv_exact s1 by [].
    have [h _ _ _ _] := update_exact (Hm exb None *m truth exb t ex_history (ex_start t) + sgb t.2) hi uS; exact h.
  split.
  + by rewrite mean_coins !big_bool /= ?tN !addrA; rewrite [X in _ *: X](_ : _ = 0) ?scaler0 //; zmod.
  + rewrite /cross mean_coins; under eq_bigr do under eq_bigr do under eq_bigr do rewrite sq.
    by rewrite one8 e8.
  + split=> //; rewrite /cross mean_coins !big_bool /= ?tN !(trN, mulNmx, mulmxN, opprK);
    by rewrite [X in _ *: X](_ : _ = 0) ?scaler0 //; zmod.
  + split=> //.
    * by rewrite mean_coins !big_bool /= ?tN !addrA; rewrite [X in _ *: X](_ : _ = 0) ?scaler0 //; zmod.
    * rewrite /cross mean_coins; under eq_bigr do under eq_bigr do under eq_bigr do rewrite sq.
      by rewrite one8 e8.
Qed.
