(** * Monotonicity, scaling and superposition: C58, C59, C60, and the effect of alpha (C23). *)
From mathcomp Require Import all_ssreflect all_algebra.
From Verif Require Import Ops Exact Spec ZmodTac LinAlg Model_KF Spec_KF Spec_KF_exact Spec_KF_order
  Proof_KF Proof_KF_exact Proof_KF_order Proof_KF_comb Prop_KF_exact.
Set Implicit Arguments.
Unset Strict Implicit.
Unset Printing Implicit Defensive.
Import Order.TTheory GRing.Theory Num.Theory.
Local Open Scope ring_scope.

Opaque kf_update kf_update_correlated.

(** ** C58 *)
Theorem C58_more_noise_more_uncertainty : forall (F : realFieldType) (fsqrt fexp flog : F -> F) (n m l : nat)
    (cs ds : list (kf_call (exactO fsqrt fexp flog) n m l)) (s t : kf (exactO fsqrt fexp flog) n m l),
  kf_good s -> inv_exact s -> inv_exact t -> worse_cfg s t -> worse_cov s t ->
  List.Forall (@psd_call F fsqrt fexp flog n m l) cs ->
  List.Forall2 (@worse_call F fsqrt fexp flog n m l) cs ds -> all_ok cs s ->
  all_ok ds t /\ worse_cov (kf_run cs s) (kf_run ds t).
Proof.
move=> F f1 f2 f3 n m l cs ds s t h1 h2 h3 h4 h5 h6 h7 h8.
have [[]] := run_mono (And5 h1 h2 h3 h4 h5) h6 h7 h8; by [].
Qed.
Print Assumptions C58_more_noise_more_uncertainty.

(** ** C23: a larger alpha never gives a smaller covariance, over whole histories. *)
Theorem C23_larger_alpha_larger_covariance : forall (F : realFieldType) (fsqrt fexp flog : F -> F) (n m l : nat)
    (cs : list (kf_call (exactO fsqrt fexp flog) n m l)) (s : kf (exactO fsqrt fexp flog) n m l) (a b : F),
  kf_good s -> inv_exact s -> 1 <= a -> a <= b ->
  List.Forall (@psd_call F fsqrt fexp flog n m l) cs ->
  List.Forall (fun c => match c with CPredict _ _ _ _ | CUpdate _ _ _ => True | _ => False end) cs ->
  let s1 := fst (kf_set_alpha (Some (a : sc (exactO fsqrt fexp flog))) s) in
  let s2 := fst (kf_set_alpha (Some (b : sc (exactO fsqrt fexp flog))) s) in
  all_ok cs s1 ->
  all_ok cs s2 /\ worse_cov (kf_run cs s1) (kf_run cs s2).
Proof.
move=> F f1 f2 f3 n m l cs s a b [pP pPr pPo pQ [pR pa]] hi a1 ab hc hk.
rewrite /kf_set_alpha /= ltNge a1 ltNge (le_trans a1 ab) /= => hok.
apply: C58_more_noise_more_uncertainty (hok) => //.
- split=> //; split=> //=; exact: mulr_ge0 (le_trans ler01 a1) (le_trans ler01 a1).
- by split=> //=; try exact: mle_refl; apply: ler_pmul => //; exact: le_trans ler01 a1.
- by split; exact: mle_refl.
clear hok; elim: hk hc => [|c cs' hc _ IH] h; first by constructor.
inversion h; subst; constructor; last exact: IH.
have nr k (x : option (sm (exactO f1 f2 f3) k)) : noise_le x x.
  by case: x => [x|] //; exact: mle_refl.
by case: c hc {H1 h} => //= *; split.
Qed.
Print Assumptions C23_larger_alpha_larger_covariance.

(** ** C59 *)
Theorem C59_covariance_units : forall (F : realFieldType) (fsqrt fexp flog : F -> F) (n m l : nat) (c : F)
    (cs : list (kf_call (exactO fsqrt fexp flog) n m l)) (s t : kf (exactO fsqrt fexp flog) n m l),
  c != 0 -> inv_exact s -> inv_exact t -> List.Forall (@seq_inv_exact F fsqrt fexp flog n m l) cs ->
  scaled c s t ->
  let cs' := List.map (@scaled_call F fsqrt fexp flog n m l c) cs in
  scaled c (kf_run cs s) (kf_run cs' t) /\ (all_ok cs s <-> all_ok cs' t).
Proof. by move=> F f1 f2 f3 n m l c cs s t h1 h2 h3 h4 h5; apply: run_scaled. Qed.
Print Assumptions C59_covariance_units.

(** ** C60 *)
Theorem C60_superposition : forall (F : realFieldType) (fsqrt fexp flog : F -> F) (n m l : nat) (a b : F)
    (cs ds es : list (kf_call (exactO fsqrt fexp flog) n m l)) (s t w : kf (exactO fsqrt fexp flog) n m l),
  same_cov s t -> same_cov s w -> kf_B s = kf_B t -> kf_B s = kf_B w -> comb_est a b s t w ->
  size cs = size ds -> size cs = size es ->
  (forall i c d e, List.nth_error cs i = Some c -> List.nth_error ds i = Some d ->
     List.nth_error es i = Some e -> comb_call a b c d e) ->
  comb_est a b (kf_run cs s) (kf_run ds t) (kf_run es w) /\
  same_cov (kf_run cs s) (kf_run es w) /\ (all_ok cs s <-> all_ok es w).
Proof.
move=> F f1 f2 f3 n m l a b cs ds es s t w h1 h2 h3 h4 h5 e1 e2 h.
by have [[_ k2 _ _ k5] k6] := run_comb (And5 h1 h2 h3 h4 h5) e1 e2 h.
Qed.
Print Assumptions C60_superposition.

(** *** The hypotheses are met *)
Definition z11 : 'cV[rat]_2 := const_mx 1.
Definition ord_cs : list (kf_call RO 2 2 0) :=
  [:: @CUpdate RO 2 2 0 (Some z11) None None; CUpdate None None None;
      @CPredict RO 2 2 0 None None None (Some (@Scal RO 2 (2%:R : rat)))].
(** The second run starts with P = 3I and R = 2I, misses the measurement, and
    has the larger process noise 5I. *)
Definition ord_ds : list (kf_call RO 2 2 0) :=
  [:: CUpdate None None None; CUpdate None None None;
      @CPredict RO 2 2 0 None None None (Some (@Scal RO 2 (5%:R : rat)))].
Definition exw : kf RO 2 2 0 :=
  @set_kf_P RO 2 2 0 (3%:R *: 1%:M : 'M[rat]_2) (@set_kf_R RO 2 2 0 (2%:R *: 1%:M : 'M[rat]_2) exa).

Lemma mle_scal (x y : rat) : x <= y -> mle (x *: 1%:M : 'M[rat]_2) (y *: 1%:M).
Proof. by move=> h; rewrite /mle -scalerBl; apply: psdZ; rewrite ?subr_ge0 //; exact: psd1. Qed.

Lemma ord_ok_gen (s : kf RO 2 2 0) : inv_exact s -> innov_cov s None None \in unitmx -> all_ok ord_cs s.
Proof.
move=> hi uS; have [h _ _ _ _] := update_exact z11 hi uS.
by split; [exact: h|move: (kf_step _ _).1 => s'; split; [exact: erefl|split; [exact: erefl|exact: I]]].
Qed.
Lemma ord_ok : all_ok ord_cs exa. Proof. exact: ord_ok_gen exa_inv exa_unit. Qed.

Example C58_example : [/\ kf_good exa, inv_exact exa, inv_exact exw, worse_cfg exa exw & worse_cov exa exw] /\
  [/\ List.Forall (@psd_call [realFieldType of rat] id id id 2 2 0) ord_cs,
      List.Forall2 (@worse_call [realFieldType of rat] id id id 2 2 0) ord_cs ord_ds & all_ok ord_cs exa].
Proof.
have e1 : 1%:M = 1 *: 1%:M :> 'M[rat]_2 by rewrite scale1r.
have h2 : mle (1%:M : 'M[rat]_2) (2%:R *: 1%:M) by rewrite [X in mle X _]e1; apply: mle_scal; rewrite ler1n.
have h3 : mle (1%:M : 'M[rat]_2) (3%:R *: 1%:M) by rewrite [X in mle X _]e1; apply: mle_scal; rewrite ler1n.
have h5 : mle (2%:R *: 1%:M : 'M[rat]_2) (5%:R *: 1%:M) by apply: mle_scal; rewrite ler_nat.
have h1 : mle (1%:M : 'M[rat]_2) 1%:M by exact: mle_refl.
split; split; [exact: exa_good|exact: exa_inv|exact: exa_inv| | | | |exact: ord_ok].
- split; [exact: erefl|exact: erefl|exact: h1|exact: h2|exact: lexx].
- split; [exact: h3|exact: h1|exact: h1].
- constructor; [exact: I|constructor; [exact: I|constructor; [exact: ler0n|constructor]]].
- constructor; [by split|constructor; [by split|constructor; [|constructor]]].
  split; [exact: erefl|exact: h5].
Qed.

Example C23_order_example : [/\ kf_good exa, inv_exact exa, (1 : rat) <= 1 & (1 : rat) <= 2%:R] /\
  all_ok ord_cs (fst (kf_set_alpha (Some (1 : sc RO)) exa)).
Proof.
split; first by split; [exact: exa_good|exact: exa_inv|exact: lexx|rewrite ler1n].
have -> : fst (kf_set_alpha (Some (1 : sc RO)) exa) = set_kf_alpha_sq ((1 : rat) * 1 : sc RO) exa by [].
apply: ord_ok_gen; [exact: exa_inv|exact: exa_unit].
Qed.

(** Every filter has a copy with all covariances doubled. *)
Lemma scaled_exists (F : realFieldType) (fsqrt fexp flog : F -> F) (n m l : nat) (c : F)
    (s : kf (exactO fsqrt fexp flog) n m l) : inv_exact s -> exists2 t, scaled c s t & inv_exact t.
Proof.
move=> hi.
exists (@mkKF (exactO fsqrt fexp flog) n m l (kf_x s) (c *: (kf_P s : 'M[F]_n)) (c *: (kf_Q s : 'M[F]_n))
  (kf_B s) (kf_F s) (kf_H s) (c *: (kf_R s : 'M[F]_m)) (kf_alpha_sq s) (c *: (kf_M s : 'M[F]_(n,m)))
  (kf_z s) (kf_K s) (kf_y s) (c *: (kf_S s : 'M[F]_m)) (c^-1 *: (kf_SI s : 'M[F]_m)) (kf_x_prior s)
  (c *: (kf_P_prior s : 'M[F]_n)) (kf_x_post s) (c *: (kf_P_post s : 'M[F]_n)) None None None (kf_inv s)) => //.
Qed.
Example C59_example : exists2 t, scaled (2%:R : rat) exa t & inv_exact t /\
  List.Forall (@seq_inv_exact [realFieldType of rat] id id id 2 2 0) ord_cs.
Proof.
have [t h1 h2] := @scaled_exists [realFieldType of rat] id id id 2 2 0 2%:R exa exa_inv.
by exists t => //; split=> //; repeat constructor.
Qed.

(** From any filter with a zero residual, three filters with states v, w and av + bw. *)
Section SupExample.
Variable F : realFieldType.
Variables (fsqrt fexp flog : F -> F).
Notation EO := (exactO fsqrt fexp flog).
Variables (n m l : nat) (a b : F) (s : kf EO n m l) (v w : 'cV[F]_n) (z z' : 'cV[F]_m).
Definition exv (v : 'cV[F]_n) : kf EO n m l :=
  @set_kf_x EO n m l v (@set_kf_x_prior EO n m l v (@set_kf_x_post EO n m l v s)).
Definition sup_cs (z : 'cV[F]_m) : list (kf_call EO n m l) :=
  [:: @CPredict EO n m l None None None None; @CUpdate EO n m l (Some z) None None].
Lemma sup_gen : kf_y s = (0 : 'cV[F]_m) ->
  let r := exv (a *: v + b *: w) in
  [/\ same_cov (exv v) (exv w), same_cov (exv v) r, comb_est a b (exv v) (exv w) r &
   forall i c d e, List.nth_error (sup_cs z) i = Some c -> List.nth_error (sup_cs z') i = Some d ->
     List.nth_error (sup_cs (a *: z + b *: z')) i = Some e -> comb_call a b c d e].
Proof.
move=> hy r; split; [by []|by []| |].
- by split; [exact: erefl|exact: erefl|exact: erefl|rewrite /= hy; exact: comb0].
- by case=> [|[|[|i]]] c d e // [<-] [<-] [<-].
Qed.
End SupExample.
Example C60_example (v w z z' : 'cV[rat]_2) : let r := exv exa (2%:R *: v + 3%:R *: w) in
  [/\ same_cov (exv exa v) (exv exa w), same_cov (exv exa v) r, comb_est (2%:R : rat) 3%:R (exv exa v) (exv exa w) r &
   forall i c d e, List.nth_error (@sup_cs [realFieldType of rat] id id id 2 2 0 z) i = Some c -> List.nth_error (@sup_cs [realFieldType of rat] id id id 2 2 0 z') i = Some d ->
     List.nth_error (@sup_cs [realFieldType of rat] id id id 2 2 0 (2%:R *: z + 3%:R *: z')) i = Some e -> comb_call (2%:R : rat) 3%:R c d e].
Proof. exact: sup_gen. Qed.
