(** * MMAEFilterBank (C30). *)
From Coq Require Import ZArith QArith.
From mathcomp Require Import all_ssreflect all_algebra.
From Verif Require Import Ops Exact Spec ZmodTac FieldTac LinAlg Model_KF Model_MM Spec_MM Proof_UKF Proof_MM Prop_MM.
Set Implicit Arguments.
Unset Strict Implicit.
Unset Printing Implicit Defensive.
Import Order.TTheory GRing.Theory Num.Theory.
Local Close Scope Q_scope.
Local Close Scope Z_scope.
Local Open Scope ring_scope.

Section Defs.
Variable F : realFieldType.
Variables (fsqrt fexp flog : F -> F).
Notation EO := (exactO fsqrt fexp flog).
Variables n m l : nat.
Variable T : Type.
Variable D : filt EO n m l T.

(** One filter by itself, on the calls the bank receives (H is the bank's): the filter afterwards and the product of
    the likelihoods it reported, one per update. *)
Definition alone_step (H : option 'M[F]_(m, n)) (c : mmae_call EO n m l) (p : T * F) : T * F :=
  match c with
  | APredict u => (fst (f_predict D u (fst p)), snd p)
  | AUpdate z R H' =>
      let f := fst (f_update D z R (match H' with None => H | _ => H' end) (fst p)) in
      (snd (f_lik D f), snd p * (fst (f_lik D f) : F))
  end.
Definition alone H (cs : list (mmae_call EO n m l)) (f : T) : T * F := foldl (fun p c => alone_step H c p) (f, 1) cs.

Definition all_likelihoods_positive : Prop :=
  forall z R H f f', f_update D z R H f = (f', None) -> 0 < (fst (f_lik D f') : F).

Variable d : T.
Variable N : nat.
Lemma mmae_update_allE z R H i fs (p : 'rV[F]_N) : let r := mmae_update_all D z R H i fs (p : M EO 1 N) in
  size r.1.1 = size fs /\ (snd r = None -> (i + size fs <= N)%N ->
  (forall j, (j < size fs)%N -> let f' := f_update D z R H (nth d fs j) in
     [/\ snd f' = None, nth d r.1.1 j = snd (f_lik D (fst f')) &
     forall k : 'I_N, (k : nat) = (i + j)%N -> (r.1.2 : 'rV[F]_N) 0 k = p 0 k * fst (f_lik D (fst f'))])
  /\ forall k : 'I_N, (k < i)%N -> (r.1.2 : 'rV[F]_N) 0 k = p 0 k).
Proof.
elim: fs i p => [|f fs IH] i p //=.
case E: (f_update D z R H f) => [f' [e|]] //.
case EL: (f_lik D f') => [L f'']; set p1 : 'rV[F]_N := matrix_of_fun _ _.
have p1E (k : 'I_N) : p1 0 k = if (k : nat) == i then p 0 k * L else p 0 k.
  rewrite mxE (mx_getE p 0 k); by have -> : Nat.eqb k i = ((k : nat) == i) by apply/PeanoNat.Nat.eqb_spec/eqP.
have := IH i.+1 p1.
case: (mmae_update_all _ _ _ _ _ _ _) => [[r p'] e] /= [s1 h].
split; [by rewrite s1|]; move=> /h {}h hN; have {h} [|h1 h2] := h; first by rewrite addSnnS.
split=> [[|j] hj|k hk] /=.
- by rewrite E /= EL; split=> // k; rewrite addn0 => kE; rewrite h2 ?kE // p1E kE eqxx.
- have [a b c] := h1 j hj; split=> // k kE; rewrite c; last by rewrite kE addSnnS.
  by rewrite p1E kE -[X in _ == X]addn0 eqn_add2l.
- by rewrite h2; [rewrite p1E ltn_eqF|exact: ltnW].
Qed.
Lemma mmae_predict_allE u fs : let r := mmae_predict_all D u fs in
  size r.1 = size fs /\ (snd r = None -> forall j, (j < size fs)%N -> f_predict D u (nth d fs j) = (nth d r.1 j, None)).
Proof.
elim: fs => [|f fs IH] //=; case E: (f_predict D u f) => [f' [e|]] //; case: (mmae_predict_all _ _ _) IH => r e /= [s1 h].
by split; [rewrite s1|move=> /h {}h [|j] //=; exact: h].
Qed.
Lemma mmae_PE (fs : list T) (w : nat -> F) (x : 'cV[F]_n) : size fs = N ->
  (mmae_P D fs w (x : M EO n 1) : 'M[F]_n) = \sum_(k < N | (k < n)%N)
     w k *: ((bank_x D fs d k - const_mx (mx_get x k 0)) *m (bank_x D fs d k - const_mx (mx_get x k 0))^T + bank_P D fs d k).
Proof.
move=> sz; pose y (f : T) (k : nat) : 'cV[F]_n := \matrix_(i < n, j < 1) (mx_get (f_x D f : 'cV[F]_n) i 0 - mx_get x k 0).
have yE f k : y f k = (f_x D f : 'cV[F]_n) - const_mx (mx_get x k 0).
  apply/matrixP => i j; rewrite !mxE !ord1; congr (_ - _); exact: (mx_getE _ i 0).
pose h (f : T) (k : nat) : 'M[F]_n := w k *: (y f k *m (y f k)^T + (f_P D f : 'M[F]_n)).
have cE (q : list T) b c : List.combine q (List.seq b (Nat.min c (length q))) = List.combine (take c q) (List.seq b (size (take c q))).
  by elim: q b c => [|f q IH] b [|c] //=; rewrite IH.
rewrite /mmae_P cE [LHS](@fold_combine T d [zmodType of 'M[F]_n] h (take n fs) 0).
rewrite -(big_mkord xpredT (fun i => h (nth d (take n fs) i) (0 + i)%N)) size_take -/(minn n (size fs)) sz.
pose g (k : nat) := w k *: (((f_x D (nth d fs k) : 'cV[F]_n) - const_mx (mx_get x k 0)) *m ((f_x D (nth d fs k) : 'cV[F]_n) - const_mx (mx_get x k 0))^T + (f_P D (nth d fs k) : 'M[F]_n)).
rewrite -[RHS](big_mkord (fun k => (k < n)%N) g) (big_nat_widen _ _ N) ?geq_minr //.
rewrite big_nat_cond [RHS]big_nat_cond; apply: eq_big => [i|i /andP[/andP[_ iN] h1]].
  by rewrite /= leq_min; case: (ltnP i N); rewrite ?andbT ?andbF.
move: h1; rewrite /= leq_min => /andP[i1 _]; by rewrite add0n /h yE nth_take.
Qed.
End Defs.

(** ** C30, update: every filter is updated by itself, p is multiplied by the likelihoods and normalised, x is
    the p-weighted mean.  (For P see C30_reported_P.) *)
Theorem C30_update : forall (F : realFieldType) (fsqrt fexp flog : F -> F) (n m l : nat) (T : Type)
    (D : filt (exactO fsqrt fexp flog) n m l T) (d : T) (N : nat) z R H (s s' : mmae (exactO fsqrt fexp flog) n m T N),
  size (a_filters s) = N -> mmae_update D z R H s = (s', None) ->
  let H' := match H with None => a_H s | _ => H end in
  let f' (j : 'I_N) := fst (f_update D z R H' (nth d (a_filters s) j)) in
  let L j : F := fst (f_lik D (f' j)) in let p : 'rV[F]_N := a_p s in let p' : 'rV[F]_N := a_p s' in
  [/\ size (a_filters s') = N,
      forall j : 'I_N, f_update D z R H' (nth d (a_filters s) j) = (f' j, None) /\ nth d (a_filters s') j = snd (f_lik D (f' j)),
      forall j, p' 0 j = p 0 j * L j / \sum_k p 0 k * L k,
      a_x s' = mixmean (p' 0) (bank_x D (a_filters s') d) &
      (a_H s', a_z s', a_x_post s', a_P_post s') = (a_H s, z, a_x s', a_P s')].
Proof.
move=> F fsqrt fexp flog n m l T D d N z R H s s' sN E H' f' L p p'; rewrite /p' {p'}; move: E; rewrite /mmae_update -/H'.
have := @mmae_update_allE F fsqrt fexp flog n m l T D d N z R H' 0 (a_filters s) (a_p s).
case: (mmae_update_all _ _ _ _ _ _ _) => [[fs w] [e|]] //= [s1 h] [<-]; cbn [a_filters a_p a_x a_H a_z a_x_post a_P_post].
have {h} [|h _] := h erefl; first by rewrite sN.
have hj (j : 'I_N) := h j; rewrite sN in hj.
have wE j : (w : 'rV[F]_N) 0 j = p 0 j * L j by have [_ _ ->] := hj j (ltn_ord j).
have sf : size fs = N by rewrite s1.
set mu : 'rV[F]_N := _ *: w; have [xE _] := mix_rowE D d mu sf.
split=> //.
- move=> j; have [a -> _] := hj j (ltn_ord j); split=> //; rewrite /f'; by case: (f_update _ _ _ _ _) a => x y /= ->.
- by move=> j; rewrite mxE vsumE wE mulrC; congr (_ / _); apply: eq_bigr => k _; exact: wE.
Qed.
Print Assumptions C30_update.

(** ** C30.  After any history without exceptions each filter is where it would be alone, and p is the initial p times the
    likelihoods accumulated by each filter, normalised; it is a probability vector. *)
Theorem C30_probabilities : forall (F : realFieldType) (fsqrt fexp flog : F -> F) (n m l : nat) (T : Type)
    (D : filt (exactO fsqrt fexp flog) n m l T) (d : T) (N : nat) (f0 : T) (fs : list T) (p : 'rV[F]_N) H z
    (cs : list (mmae_call (exactO fsqrt fexp flog) n m l)) s',
  all_likelihoods_positive D -> prob p -> size fs = N ->
  mmae_run D cs (mmae_init D f0 fs (p : M (exactO fsqrt fexp flog) 1 N) H z) = Some s' ->
  let r (j : 'I_N) := alone D H cs (nth d fs j) in let p' : 'rV[F]_N := a_p s' in
  [/\ size (a_filters s') = N, forall j : 'I_N, nth d (a_filters s') j = fst (r j), forall j, 0 < snd (r j),
      forall j, p' 0 j = p 0 j * snd (r j) / \sum_k p 0 k * snd (r k) & prob p'].
Proof.
move=> F fsqrt fexp flog n m l T D d N f0 fs p H z cs s' hL [p0 p1] sN.
have G (lam : 'I_N -> F) : (forall j, 0 < lam j) -> 0 < \sum_k p 0 k * lam k.
  move=> h; rewrite lt_def sumr_ge0 ?andbT => [|k _]; last by rewrite mulr_ge0 // ltW.
  apply/negP; rewrite psumr_eq0 => [/allP hz|k _]; last by rewrite mulr_ge0 // ltW.
  have := oner_neq0 F; rewrite -p1 big1 ?eqxx // => k _; have := hz k (mem_index_enum _).
  by rewrite mulf_eq0 (gt_eqF (h k)) orbF => /eqP.
suff K : forall (q : 'I_N -> T * F) s, (forall j, 0 < snd (q j)) -> size (a_filters s) = N -> a_H s = H ->
    (forall j : 'I_N, nth d (a_filters s) j = fst (q j)) ->
    (forall j, (a_p s : 'rV[F]_N) 0 j = p 0 j * snd (q j) / \sum_k p 0 k * snd (q k)) ->
    mmae_run D cs s = Some s' -> let r j := foldl (fun p c => alone_step D H c p) (q j) cs in
    [/\ size (a_filters s') = N, forall j : 'I_N, nth d (a_filters s') j = fst (r j), forall j, 0 < snd (r j) &
      forall j, (a_p s' : 'rV[F]_N) 0 j = p 0 j * snd (r j) / \sum_k p 0 k * snd (r k)].
  move=> run; have pE j : p 0 j = p 0 j * 1 / \sum_k p 0 k * 1.
    by rewrite mulr1 (eq_bigr (p 0)) ?p1 ?divr1 // => k _; rewrite mulr1.
  have [] := K (fun j => (nth d fs j, 1)) (mmae_init D f0 fs (p : M (exactO fsqrt fexp flog) 1 N) H z) (fun=> ltr01) sN erefl (fun=> erefl) pE run => h1 h2 h3 h4.
  split=> //; split=> [j|]; first by rewrite h4 divr_ge0 ?(ltW (G _ h3)) // mulr_ge0 // ltW.
  by rewrite (eq_bigr _ (fun j _ => h4 j)) -mulr_suml divff // gt_eqF // G.
elim: cs => [|c cs IH] q s q0 sz hH hf hp; first by move=> [<-].
cbn [mmae_run]; case E: (mmae_step D c s) => [s1 [e|]] // run.
apply: (IH (fun j => alone_step D H c (q j)) s1) run; case: c E => [u|z' R H'] E.
- exact: q0.
- move=> j; have [_ hu _ _ _] := C30_update d sz E; have [a _] := hu j; rewrite hH hf in a.
  by rewrite /= mulr_gt0 // (hL _ _ _ _ _ a).
- move: E; rewrite /mmae_step /mmae_predict; have := @mmae_predict_allE F fsqrt fexp flog n m l T D d u (a_filters s).
  by case: (mmae_predict_all _ _ _) => [q' [e|]] // [/= s1' _] [<-]; exact: etrans s1' sz.
- by have [] := C30_update d sz E.
- move: E; rewrite /mmae_step /mmae_predict; by case: (mmae_predict_all _ _ _) => [q' [e|]] // [<-].
- by have [_ _ _ _ [-> _ _ _]] := C30_update d sz E.
- move: E; rewrite /mmae_step /mmae_predict; have := @mmae_predict_allE F fsqrt fexp flog n m l T D d u (a_filters s).
  case: (mmae_predict_all _ _ _) => [q' [e|]] // [/= s1' h] [<-] j; cbn [a_filters].
  by have := h erefl j; rewrite sz hf => /(_ (ltn_ord j)) /= ->.
- by move=> j; have [_ hu _ _ _] := C30_update d sz E; have [_ ->] := hu j; rewrite hH hf.
- move: E; rewrite /mmae_step /mmae_predict; by case: (mmae_predict_all _ _ _) => [q' [e|]] // [<-].
- move=> j; have [_ _ hq _ _] := C30_update d sz E; rewrite hq hp /= hH hf.
  have -> : \sum_k (a_p s : 'rV[F]_N) 0 k * (fst (f_lik D (fst (f_update D z' R (match H' with None => H | _ => H' end) (nth d (a_filters s) k)))) : F) =
    (\sum_k p 0 k * snd (alone_step D H (AUpdate l z' R H') (q k))) / \sum_k p 0 k * snd (q k).
    rewrite mulr_suml; apply: eq_bigr => k _; rewrite hp hf /= -!mulrA; congr (_ * (_ * _)); by rewrite mulrC.
  have := G _ q0; have : 0 < \sum_k p 0 k * snd (alone_step D H (AUpdate l z' R H') (q k)).
    apply: G => k; have [_ hu _ _ _] := C30_update d sz E; have [a _] := hu k; rewrite hH hf in a.
    by rewrite /= mulr_gt0 // (hL _ _ _ _ _ a).
  move: (\sum_k _) (\sum_k _) => A B A0 B0; by rewrite invf_div -!mulrA [_ * (A / B)]mulrCA mulKf // gt_eqF.
Qed.
Print Assumptions C30_probabilities.

(** The P that update reports: only the first min(dim_x, N) filters contribute, and the k-th one with its deviation from
    the single number x[k] in every component. *)
Theorem C30_reported_P : forall (F : realFieldType) (fsqrt fexp flog : F -> F) (n m l : nat) (T : Type)
    (D : filt (exactO fsqrt fexp flog) n m l T) (d : T) (N : nat) z R H (s s' : mmae (exactO fsqrt fexp flog) n m T N),
  size (a_filters s) = N -> mmae_update D z R H s = (s', None) ->
  let p' : 'rV[F]_N := a_p s' in
  (a_P s' : 'M[F]_n) = \sum_(k < N | (k < n)%N)
     p' 0 k *: ((bank_x D (a_filters s') d k - const_mx (mx_get (a_x s') k 0)) *m (bank_x D (a_filters s') d k - const_mx (mx_get (a_x s') k 0))^T
                + bank_P D (a_filters s') d k).
Proof.
move=> F fsqrt fexp flog n m l T D d N z R H s s' sN E; have [sz _ _ _ _] := C30_update d sN E; move: E sz.
rewrite /mmae_update; case: (mmae_update_all _ _ _ _ _ _ _) => [[fs w] [e|]] //= [<-]; cbn [a_filters a_p a_x a_P] => sz.
set mu : 'rV[F]_N := _ *: w; move: (mix_x D fs _) => x.
rewrite (mmae_PE D d (mx_get mu 0) x sz); apply: eq_bigr => k _; by rewrite (mx_getE mu 0 k).
Qed.
Print Assumptions C30_reported_P.

(** predict moves the filters but not the bank's x and P: x_prior and P_prior are the values left by the last update
    (any arithmetic). *)
Theorem C30_predict : forall (o : nops) (n m l : nat) (T : Type) (D : filt o n m l T) (N : nat) u (s s' : mmae o n m T N),
  mmae_predict D u s = (s', None) ->
  a_filters s' = fst (mmae_predict_all D u (a_filters s)) /\
  (a_p s', a_x s', a_P s', a_x_prior s', a_P_prior s', a_x_post s', a_P_post s') = (a_p s, a_x s, a_P s, a_x s, a_P s, a_x_post s, a_P_post s).
Proof. by move=> o n m l T D N u s s'; rewrite /mmae_predict; case: (mmae_predict_all _ _ _) => [fs [e|]] // [<-]. Qed.
Print Assumptions C30_predict.

(** KalmanFilter objects report positive likelihoods after any update. *)
Theorem C30_kalman_filters_qualify : forall (F : realFieldType) (fsqrt fexp flog : F -> F) (n m l : nat) lpdf (fmin : F),
  (forall x, 0 <= fexp x) -> 0 < fmin -> all_likelihoods_positive (@kf_filt (exactO fsqrt fexp flog) n m l lpdf fmin).
Proof.
move=> F fsqrt fexp flog n m l lpdf fmin e0 f0; set D := kf_filt _ _ _ _.
move=> z R H f f'; have : kf_lik f' = None -> 0 < (fst (f_lik D f') : F).
  rewrite /D /kf_filt; cbn [f_lik]; rewrite /kf_likelihood => ->; rewrite /kf_log_likelihood.
  case: (kf_loglik f') => [v|]; cbn [fst]; (case: ifP => //; rewrite -[seqb _ _ _]/(_ == 0); move=> h; by rewrite lt_def h e0).
move=> h E; apply: h; move: E; rewrite /D; cbn [f_update kf_filt]; case: z => [z|]; rewrite /kf_update; last by move=> [<-].
by case: (kf_inv _ _) => [SI|] // [<-].
Qed.
Print Assumptions C30_kalman_filters_qualify.
