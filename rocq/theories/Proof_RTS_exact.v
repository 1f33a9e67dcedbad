(** * The backward recursion solves the trajectory least-squares problem. *)
From mathcomp Require Import all_ssreflect all_algebra.
From Verif Require Import Ops Exact Spec ZmodTac LinAlg Model_KF Spec_KF_exact Spec_RTS Proof_RTS.
Set Implicit Arguments.
Unset Strict Implicit.
Unset Printing Implicit Defensive.
Import Order.TTheory GRing.Theory Num.Theory.
Local Open Scope ring_scope.

Section Core.
Variables (F : realFieldType) (n m : nat).
Notation epoch := (epoch F n m).
Notation st := ('cV[F]_n * 'M[F]_n)%type.

Definition Ppred (e : epoch) (P : 'M[F]_n) : 'M[F]_n := Smx P (ep_F e) (ep_Q e).
Definition post (e : epoch) (s : st) : st :=
  let xp := ep_F e *m s.1 in let Pp := Ppred e s.2 in
  if ep_z e is Some z then (xup xp Pp (ep_H e) (ep_R e) z, Pup Pp (ep_H e) (ep_R e)) else (xp, Pp).

Fixpoint sm (s : st) (es : seq epoch) : seq st :=
  if es is e :: es then
    let rest := sm (post e s) es in
    let h := head (0, 0) rest in
    let G := Kmx s.2 (ep_F e) (ep_Q e) in
    (s.1 + G *m (h.1 - ep_F e *m s.1), s.2 + G *m (h.2 - Ppred e s.2) *m G^T) :: rest
  else [:: s].

Lemma sm_size s es : size (sm s es) = (size es).+1.
Proof. by elim: es s => [|e es IH] s //=; rewrite IH. Qed.

Lemma PpredE (e : epoch) P : Ppred e P = ep_F e *m P *m (ep_F e)^T + ep_Q e.
Proof. by rewrite /Ppred /Smx mulmxA. Qed.

Lemma Ppred_pd (e : epoch) P : good_epoch e -> psd P -> pd (Ppred e P).
Proof. by case=> pQ _ pP; apply: pd_Smx. Qed.

Lemma pd_Pup k (P : 'M[F]_n) (H : 'M[F]_(k,n)) R : pd P -> pd R -> pd (Pup P H R).
Proof.
move=> pP pR; have pS := pd_Smx H (pd_psd pP) pR.
apply: psd_unit_pd; first by apply: psd_Jmx; exact: pd_psd.
by apply: unit_J; rewrite ?pd_unit // pd_sym.
Qed.

Lemma post_pd (e : epoch) (s : st) : good_epoch e -> psd s.2 -> pd (post e s).2.
Proof.
move=> g pP; have pp := Ppred_pd g pP; case: g => pQ pR.
by rewrite /post; case: (ep_z e) => [z|] //=; apply: pd_Pup.
Qed.

Lemma post_cost (e : epoch) (s : st) : good_epoch e -> psd s.2 ->
  exists c, forall v, qf (invmx (Ppred e s.2)) (v - ep_F e *m s.1) + meas_cost e v
     = c + qf (invmx (post e s).2) (v - (post e s).1).
Proof.
move=> g pP; have pp := Ppred_pd g pP; case: g => pQ pR.
rewrite /post /meas_cost; case: (ep_z e) => [z|] /=; last by exists 0 => v; rewrite addr0 add0r.
have pS := pd_Smx (ep_H e) (pd_psd pp) pR.
set y := z - ep_H e *m (ep_F e *m s.1).
exists (qf (invmx (Smx (Ppred e s.2) (ep_H e) (ep_R e))) y) => v.
have := @complete_square F n m (Ppred e s.2) (ep_H e) (ep_R e) (pd_sym pp) (pd_sym pR) (pd_unit pp) (pd_unit pR)
   (pd_unit pS) (v - ep_F e *m s.1) y.
have -> : y - ep_H e *m (v - ep_F e *m s.1) = z - ep_H e *m v by rewrite /y mulmxBr; zmod.
move=> ->; rewrite addrC /Pup invJ ?pd_unit ?pd_sym //; congr (_ + qf _ _).
by rewrite /xup -/y; zmod.
Qed.

(** The backward gain: completing the square in the state before an epoch. *)
Lemma back_square (e : epoch) (s : st) v w : good_epoch e -> pd s.2 ->
  let G := Kmx s.2 (ep_F e) (ep_Q e) in
  qf (invmx s.2) (v - s.1) + qf (invmx (ep_Q e)) (w - ep_F e *m v)
  = qf (Lmx s.2 (ep_F e) (ep_Q e)) (v - (s.1 + G *m (w - ep_F e *m s.1)))
    + qf (invmx (Ppred e s.2)) (w - ep_F e *m s.1).
Proof.
move=> [pQ pR] pP G.
have pp := pd_Smx (ep_F e) (pd_psd pP) pQ.
by rewrite predict_square // ?pd_unit // pd_sym.
Qed.

Lemma Lmx_pd (P A Q : 'M[F]_n) : pd P -> pd Q -> pd (Lmx P A Q).
Proof.
move=> pP pQ; have pS := pd_Smx A (pd_psd pP) pQ.
have e : invmx (Jmx P A Q (Kmx P A Q)) = Lmx P A Q by apply: invJ; rewrite ?pd_unit ?pd_sym.
by rewrite -e; apply: pd_inv; apply: pd_Pup.
Qed.

Lemma qf_ge0 k (A : 'M[F]_k) v : pd A -> 0 <= qf A v.
Proof. by move=> pA; case: (pd_psd pA). Qed.

Definition core (s : st) (es : seq epoch) (c : F) (k : nat) (x : 'cV[F]_n) (P : 'M[F]_n) : Prop :=
  [/\ pd P,
      forall v vs, size vs = size es ->
        c + qf (invmx P) (nth 0 (v :: vs) k - x) <= qf (invmx s.2) (v - s.1) + links v es vs &
      forall u, exists v vs, [/\ size vs = size es, nth 0 (v :: vs) k = u &
        qf (invmx s.2) (v - s.1) + links v es vs = c + qf (invmx P) (u - x)]].

Lemma sm_core (es : seq epoch) (s : st) : List.Forall (@good_epoch F n m) es -> pd s.2 ->
  exists c, forall k, (k <= size es)%N -> core s es c k (nth (0, 0) (sm s es) k).1 (nth (0, 0) (sm s es) k).2.
Proof.
elim: es s => [|e es IH] s.
  move=> _ pP; exists 0 => -[|k] //= _; split=> //.
    by move=> v [|? ?] //= _; rewrite add0r addr0.
  by move=> u; exists u, [::]; split=> //=; rewrite addr0 add0r.
move=> gs pP; have [g ges] : good_epoch e /\ List.Forall (@good_epoch F n m) es by inversion gs.
have pP' := post_pd g (pd_psd pP).
have [c hc] := IH (post e s) ges pP'.
have [c0 hc0] := post_cost g (pd_psd pP).
have [pQ pR] := g.
set G := Kmx s.2 (ep_F e) (ep_Q e); set L := Lmx s.2 (ep_F e) (ep_Q e).
have pL : pd L by apply: Lmx_pd.
have step v w ws : qf (invmx s.2) (v - s.1) + links v (e :: es) (w :: ws)
   = qf L (v - (s.1 + G *m (w - ep_F e *m s.1))) + (c0 + (qf (invmx (post e s).2) (w - (post e s).1) + links w es ws)).
  have h1 := back_square v w g pP; have h2 := hc0 w; rewrite /= -/G -/L in h1 h2 *.
  by rewrite -addrA addrA h1 -addrA; congr (_ + _); rewrite !addrA h2.
exists (c0 + c) => -[|k] /= hk; last first.
  have [pPk lo at_] := hc k hk; split=> //.
    move=> v [|w ws] //= [sz]; rewrite step -!addrA [X in _ <= X]addrC.
    have := lo w ws sz; have := qf_ge0 (v - (s.1 + G *m (w - ep_F e *m s.1))) pL => h1 h2.
    rewrite -!addrA ler_add2l -[X in X <= _]addr0 addrA; apply: ler_add => //.
  move=> u; have [w [ws [sz nk eq]]] := at_ u.
  exists (s.1 + G *m (w - ep_F e *m s.1)), (w :: ws); split=> //=; first by rewrite sz.
  by rewrite step eq subrr qf0r add0r addrA.
have [pP0 lo at_] := hc 0%N isT.
set h := nth (0, 0) (sm (post e s) es) 0 in pP0 lo at_ *.
have hE : head (0, 0) (sm (post e s) es) = h by rewrite -nth0.
rewrite hE.
set J := Jmx s.2 (ep_F e) (ep_Q e) G.
have pS := pd_Smx (ep_F e) (pd_psd pP) pQ.
have pJ : pd J by apply: pd_Pup.
have iJ : invmx J = L by apply: invJ; rewrite ?pd_unit ?pd_sym.
set x0 := s.1 + G *m (h.1 - ep_F e *m s.1).
set P0 := s.2 + _.
have P0E : P0 = Smx h.2 G J.
  have -> : J = s.2 - G *m Ppred e s.2 *m G^T by apply: Jmx_minus; rewrite ?pd_unit ?pd_sym.
  by rewrite /P0 {1}/Smx mulmxBr mulmxBl !mulmxA; zmod.
have pSJ := pd_Smx G (pd_psd pP0) pJ.
have sq v w : qf (invmx h.2) (w - h.1) + qf L (v - (s.1 + G *m (w - ep_F e *m s.1)))
   = qf (Lmx h.2 G J) (w - (h.1 + Kmx h.2 G J *m (v - x0))) + qf (invmx P0) (v - x0).
  have := @predict_square F n h.2 G J (pd_sym pP0) (pd_sym pJ) (pd_unit pP0) (pd_unit pJ) (pd_unit pSJ)
    h.1 w (v - (s.1 - G *m (ep_F e *m s.1))).
  rewrite iJ P0E.
  have -> : v - (s.1 - G *m (ep_F e *m s.1)) - G *m w = v - (s.1 + G *m (w - ep_F e *m s.1)).
    by rewrite mulmxBr; zmod.
  have -> : v - (s.1 - G *m (ep_F e *m s.1)) - G *m h.1 = v - x0 by rewrite /x0 mulmxBr; zmod.
  by [].
have pLG : pd (Lmx h.2 G J) by apply: Lmx_pd.
split; first by rewrite P0E.
  move=> v [|w ws] //= [sz]; rewrite step.
  have a1 := lo w ws sz; have a2 := sq v w; have a3 := qf_ge0 (w - (h.1 + Kmx h.2 G J *m (v - x0))) pLG.
  rewrite /= in a1 a2 *.
  set B := links w es ws in a1 *. set C := qf (invmx (post e s).2) _ in a1 *.
  set D := qf L _ in a2 *. set E := qf (invmx h.2) _ in a1 a2. set A := qf (Lmx _ _ _) _ in a2 a3.
  rewrite [D + _]addrC -!addrA ler_add2l addrA.
  apply: (le_trans _ (_ : (c + E) + D <= _)); last by rewrite ler_add2r.
  by rewrite -addrA a2 ler_add2l ler_addr.
move=> u; set w := h.1 + Kmx h.2 G J *m (u - x0).
have [w' [ws [sz /= nk eq]]] := at_ w; subst w'.
exists u, (w :: ws); split=> //=; first by rewrite sz.
have a2 := sq u w; rewrite [X in qf (Lmx _ _ _) X](_ : _ = 0) in a2; last by rewrite /w subrr.
rewrite qf0r add0r in a2.
by rewrite step eq -a2 addrC -!addrA.
Qed.
End Core.

Section Link.
Variables (F : realFieldType) (fsqrt fexp flog : F -> F) (n m l : nat).
Notation EO := (exactO fsqrt fexp flog).
Notation epoch := (epoch F n m).
Notation st := ('cV[F]_n * 'M[F]_n)%type.
Notation kf := (kf EO n m l).

Fixpoint scan (s : st) (es : seq epoch) : seq st :=
  if es is e :: es then post e s :: scan (post e s) es else [::].

Lemma scan_size s es : size (scan s es) = size es.
Proof. by elim: es s => [|e es IH] s //=; rewrite IH. Qed.

Definition erow (e : epoch) : row EO n m l :=
  @mkRow EO n m l (ep_z e) (Some (ep_F e)) (Some (@Mat EO n (ep_Q e))) (Some (ep_H e)) (Some (@Mat EO m (ep_R e)))
    None (Some (mzeros l 1)).

Lemma zip_erows (es : seq epoch) :
  @zip_rows EO n m l (map (@ep_z F n m) es) (map (fun e => Some (ep_F e)) es)
    (map (fun e => Some (@Mat EO n (ep_Q e))) es) (map (fun e => Some (ep_H e)) es)
    (map (fun e => Some (@Mat EO m (ep_R e))) es) (List.repeat None (length es))
    (List.repeat (Some (mzeros l 1)) (length es)) = map erow es.
Proof. by elim: es => [|e es IH] //=; rewrite IH. Qed.

Definition bpair (b : brow EO n) : st := (b_mean b, b_cov b).

Lemma batch_scan (es : seq epoch) (s : kf) :
  psd (kf_P s : 'M[F]_n) -> kf_B s = None -> kf_alpha_sq s = 1 -> inv_exact s ->
  List.Forall (@good_epoch F n m) es ->
  exists s' bs, batch_loop false (map erow es) s = (s', Ok bs) /\
    map bpair bs = scan (kf_x s : 'cV[F]_n, kf_P s : 'M[F]_n) es.
Proof.
elim: es s => [|e es IH] s pP hB ha hi gs; first by exists s, [::].
have [g ges] : good_epoch e /\ List.Forall (@good_epoch F n m) es by inversion gs.
set s0 : st := (kf_x s : 'cV[F]_n, kf_P s : 'M[F]_n).
have pp := @Ppred_pd F n m e s0.2 g pP.
have aP : 1 *: (ep_F e *m (kf_P s : 'M[F]_n) *m (ep_F e)^T) + ep_Q e = Ppred e s0.2.
  by rewrite scale1r PpredE.
have [s1 [e1 [ex [eP [eB [ea ei]]]]]] : exists s1, batch_step false (erow e) s =
    (s1, Ok (@mkBrow EO n (post e s0).1 (post e s0).2 (ep_F e *m s0.1) (Ppred e s0.2))) /\
    kf_x s1 = (post e s0).1 /\ kf_P s1 = (post e s0).2 /\ kf_B s1 = None /\
    kf_alpha_sq s1 = kf_alpha_sq s /\ kf_inv s1 = kf_inv s.
  apply: (@epoch_step EO n m l) => //; first by rewrite ha; exact: aP.
  have pS := pd_Smx (ep_H e) (pd_psd pp) g.2.
  rewrite /post; case: (ep_z e) => [z|] //.
  exists (invmx (Smx (Ppred e s0.2) (ep_H e) (ep_R e))); split; last by [].
  have := hi (Smx (Ppred e s0.2) (ep_H e) (ep_R e)); rewrite /mx_inv pd_unit // => h; exact: h.
have [||||| s' [bs [e2 e3]]] := IH s1 => //.
- by rewrite eP; apply/pd_psd/post_pd.
- by rewrite ea.
- by move=> A; rewrite ei.
exists s', (@mkBrow EO n (post e s0).1 (post e s0).2 (ep_F e *m s0.1) (Ppred e s0.2) :: bs).
split; first (pose proof (@batch_loop_cons EO n m l false (erow e) (map erow es) s s1 s' _ bs e1 e2) as q; exact q).
rewrite /= e3 ex eP /bpair /=; congr (_ :: scan _ _); by case: (post e s0).
Qed.

(** Entries of the backward pass determine it. *)
Lemma sm_char (es : seq epoch) (s : st) (X : seq 'cV[F]_n) (Ps : seq 'M[F]_n) :
  size X = (size es).+1 -> size Ps = (size es).+1 ->
  (forall k e, List.nth_error es k = Some e -> exists a x1 P1,
     [/\ List.nth_error (s :: scan s es) k = Some a,
         List.nth_error X k.+1 = Some x1, List.nth_error Ps k.+1 = Some P1 &
         let G := Kmx a.2 (ep_F e) (ep_Q e) in
         List.nth_error X k = Some (a.1 + G *m (x1 - ep_F e *m a.1)) /\
         List.nth_error Ps k = Some (a.2 + G *m (P1 - Ppred e a.2) *m G^T)]) ->
  List.nth_error X (size es) = Some (last s (scan s es)).1 ->
  List.nth_error Ps (size es) = Some (last s (scan s es)).2 ->
  X = map fst (sm s es) /\ Ps = map snd (sm s es).
Proof.
elim: es s X Ps => [|e es IH] s [|x X] [|P Ps] //=.
  by case: X Ps => [|? ?] [|? ?] // _ _ _ [->] [->]; split.
move=> [sX] [sP] h lX lP.
have [|||eX eP] := IH (post e s) X Ps sX sP => //.
  by move=> k e' hk; have [a [x1 [P1 [h1 h2 h3 h4]]]] := h k.+1 e' hk; exists a, x1, P1.
have [a [x1 [P1 [[<-] h2 h3 [[h4] [h5]]]]]] := h 0%N e erefl.
rewrite h4 h5 -eX -eP.
case: X x1 h2 {sX h h4 lX IH} eX => [|x1' X] //= x1 [<-] eX.
case: Ps P1 h3 {sP h5 lP} eP => [|P1' Ps] //= P1 [<-] eP.
by move: eX eP; case: (sm (post e s) es) => [|[a' b'] t] //= [-> _] [-> _].
Qed.

Lemma lengthE (A : Type) (xs : seq A) : length xs = size xs.
Proof. by []. Qed.

Lemma nth_error_map' (A B : Type) (f : A -> B) (xs : seq A) k :
  List.nth_error (map f xs) k = option_map f (List.nth_error xs k).
Proof. by elim: xs k => [|x xs IH] [|k] //=. Qed.

Lemma nth_error_last (A : Type) (x : A) xs : List.nth_error (x :: xs) (size xs) = Some (last x xs).
Proof. by elim: xs x => [|y xs IH] x //=; rewrite -IH. Qed.

Lemma nth_error_size (A : Type) (xs : seq A) k x : List.nth_error xs k = Some x -> (k < size xs)%N.
Proof. by elim: xs k => [|y xs IH] [|k] //= /IH. Qed.

Lemma nth_error_ex (A : Type) (xs : seq A) k : (k < size xs)%N -> exists x, List.nth_error xs k = Some x.
Proof. by elim: xs k => [|y xs IH] [|k] //= h; [exists y|apply: IH]. Qed.

Lemma scan_psd (es : seq epoch) s k a : List.Forall (@good_epoch F n m) es -> psd s.2 ->
  List.nth_error (s :: scan s es) k = Some a -> psd a.2.
Proof.
elim: es s k => [|e es IH] s [|k] //=; try by move=> _ h [<-].
  by case: k.
move=> gs pP; have [g ges] : good_epoch e /\ List.Forall (@good_epoch F n m) es by inversion gs.
by apply: IH => //; apply/pd_psd/post_pd.
Qed.

Lemma forall_nth (es : seq epoch) k e : List.Forall (@good_epoch F n m) es -> List.nth_error es k = Some e -> good_epoch e.
Proof. by move=> /List.Forall_forall h hk; apply: h; apply: List.nth_error_In hk. Qed.

(** The backward pass over the filter's output is [sm], with the gains and
    predicted covariances of the forward pass, for either indexing. *)
Lemma rts_run_sm (idx : nat -> nat) (es : seq epoch) (s : st) (Fs Qs : seq 'M[F]_n) :
  List.Forall (@good_epoch F n m) es -> psd s.2 ->
  (forall k e, List.nth_error es k = Some e -> List.nth_error Fs (idx k) = Some (ep_F e) /\
                                          List.nth_error Qs (idx k) = Some (ep_Q e)) ->
  exists r : rts EO n,
    rts_run (o := EO) idx (@mx_inv F n) (map fst (s :: scan s es)) (map snd (s :: scan s es)) Fs Qs = Ok r /\
    rts_x r = map fst (sm s es) /\ rts_P r = map snd (sm s es).
Proof.
move=> gs pP hFQ; rewrite /rts_run.
set X := map fst _; set Ps := map snd _.
have lX : length X = (size es).+1 by rewrite /X lengthE size_map /= scan_size.
have lP : length Ps = (size es).+1 by rewrite /Ps lengthE size_map /= scan_size.
rewrite lX lP PeanoNat.Nat.eqb_refl /= PeanoNat.Nat.sub_0_r.
set r0 := mkRts _ _ _ _.
have [r hr] : exists r', rts_loop (o := EO) idx (@mx_inv F n) Fs Qs (size es) r0 = Ok r'.
  apply: rts_loop_ok.
  - by change (lt (size es) (length X)); rewrite lX; apply: le_n.
  - by change (lt (size es) (length Ps)); rewrite lP; apply: le_n.
  move=> k P /ssrnat.ltP hk hP; have [e he] := nth_error_ex hk; have [hF hQ] := hFQ k e he.
  exists (ep_F e), (ep_Q e), (invmx (Ppred e P)); split => //; split=> //.
  have ha : psd P.
    move: hP; rewrite /Ps nth_error_map'; case ea: (List.nth_error _ _) => [a|] //= [<-].
    exact: (scan_psd gs pP ea).
  have pp := Ppred_pd (forall_nth gs he) ha; rewrite PpredE in pp *.
  by have := pd_unit pp => u; rewrite /mx_inv /= u.
exists r; split; first exact: hr.
have [h1 [h2 [h3 [h4 [h5 h6]]]]] := @rts_loop_entries EO n idx (@mx_inv F n) Fs Qs (size es) r0 r hr.
have lr : length (rts_K r0) = length (rts_x r0) by change (S (length (List.repeat (0 : 'M[F]_n) (size es))) = length X); rewrite List.repeat_length lX.
have lr' : length (rts_Pp r0) = length (rts_x r0) by change (length Ps = length X); rewrite lX lP.
have sx : size (rts_x r) = (size es).+1 by rewrite -lengthE h1.
have sp : size (rts_P r) = (size es).+1 by rewrite -lengthE h2.
apply: sm_char => //.
- move=> k e he; have hk : (k < size es)%N := nth_error_size he.
  have [F' [Q' [x [x1 [P [P1 [Pi [g1 [g2 [g3 [g4 [g5 [g6 [g7 g8]]]]]]]]]]]]]] := h5 lr lr' k (ssrnat.ltP hk).
  have [hF hQ] := hFQ k e he.
  move: g1 g2; rewrite hF hQ => -[eF] [eQ]; subst F' Q'.
  move: g3 g4; rewrite /= /X /Ps !nth_error_map'; case ea: (List.nth_error _ _) => [a|] //= [ex] [eP].
  exists a, x1, P1; split=> //.
  have ha := scan_psd gs pP ea; have pp := Ppred_pd (forall_nth gs he) ha.
  have ePp : ep_F e *m P *m (ep_F e)^T + ep_Q e = Ppred e a.2 by rewrite PpredE eP.
  move: g7 g8; rewrite /= ePp /mx_inv pd_unit // => -[<-] [g8 [g9 _]]; rewrite -ex -eP in g8 g9 *.
  by split; [exact: g8|exact: g9].
- have [-> _] := h4 (size es) (le_n _); rewrite /= /X nth_error_map' -[size es](scan_size s) nth_error_last //.
- have [_ ->] := h4 (size es) (le_n _); rewrite /= /Ps nth_error_map' -[size es](scan_size s) nth_error_last //.
Qed.
End Link.
