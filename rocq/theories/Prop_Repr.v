(** * C83: printing.  Strings, and any arithmetic. *)
From Coq Require Import List Arith Bool String Ascii Lia QArith.
From Verif Require Import Ops ListOps Model_KF Spec_KF Proof_KF Model_EKF Model_Repr Prop_Lik.
Import ListNotations.
Local Open Scope string_scope.

(** ** Lines of text *)
Definition one_line (s : string) : Prop := ~ In "010"%char (list_ascii_of_string s).
Fixpoint drop (k : nat) (s : string) : string :=
  match k, s with S k, String _ s => drop k s | _, _ => s end.
Lemma lines_cons c s : one_line (String c "") -> lines (String c s) = match lines s with [] => [String c ""] | l :: ls => String c l :: ls end.
Proof.
  intros h. cbn [lines]. destruct (Ascii.eqb_spec c "010") as [->|]; [|reflexivity]. exfalso. apply h. left. reflexivity.
Qed.
Lemma one_cons c s : one_line (String c s) <-> one_line (String c "") /\ one_line s.
Proof. unfold one_line. cbn. tauto. Qed.
Lemma one_app a b : one_line (a ++ b) <-> one_line a /\ one_line b.
Proof. unfold one_line. induction a as [|c a IH]; cbn; tauto. Qed.
Lemma lines_ne s : lines s <> [].
Proof. destruct s as [|c s]; cbn; [discriminate|]. destruct (Ascii.eqb c "010"); [discriminate|]. destruct (lines s); discriminate. Qed.
Lemma lines_app a s : one_line a -> lines (a ++ s) = match lines s with [] => [] | l :: ls => (a ++ l) :: ls end.
Proof.
  induction a as [|c a IH]; intros h; [cbn; destruct (lines s); reflexivity|].
  apply one_cons in h. destruct h as [h1 h2]. cbn [append]. rewrite lines_cons, IH by assumption.
  pose proof (lines_ne s). destruct (lines s); [contradiction|reflexivity].
Qed.
Lemma lines_nl a s : lines (a ++ nl ++ s) = (lines a ++ lines s)%list.
Proof.
  induction a as [|c a IH]; [reflexivity|]. cbn [append lines]. rewrite IH.
  destruct (Ascii.eqb c "010"); [reflexivity|]. pose proof (lines_ne a). destruct (lines a); [contradiction|reflexivity].
Qed.
Lemma app_nil s : s ++ "" = s.
Proof. induction s; cbn; congruence. Qed.
Lemma app_assoc' a b c : (a ++ b) ++ c = a ++ (b ++ c).
Proof. induction a; cbn; congruence. Qed.
Lemma lines_one s : one_line s -> lines s = [s].
Proof. intros h. pose proof (lines_app s "" h) as E. cbn [lines] in E. rewrite app_nil in E. exact E. Qed.
Lemma lines_are_lines s : Forall one_line (lines s).
Proof.
  induction s as [|c s IH]; [repeat constructor; intros []|]. cbn [lines]. destruct (Ascii.eqb_spec c "010") as [e|e]; [constructor; [intros []|exact IH]|].
  destruct (lines s) as [|l ls]; [repeat constructor; intros [E|[]]; congruence|].
  inversion IH as [|x y h1 h2]; subst. constructor; [|exact h2]. apply one_cons. split; [intros [E|[]]; congruence|exact h1].
Qed.
Lemma drop_app a s : drop (length a) (a ++ s) = s.
Proof. induction a; cbn; auto. Qed.
Lemma prefix_app a s : prefix a (a ++ s) = true.
Proof. induction a as [|c a IH]; cbn; [destruct s; reflexivity|]. destruct (ascii_dec c c); [exact IH|contradiction]. Qed.
Lemma blanks_one k : one_line (blanks k).
Proof. induction k as [|k IH]; [intros []|]. cbn [blanks]. apply one_cons. split; [intros [E|[]]; discriminate E|exact IH]. Qed.
Lemma blanks_len k : length (blanks k) = k.
Proof. induction k; cbn; auto. Qed.
Lemma one_unline s : one_line (unline s).
Proof. induction s as [|c s IH]; [intros []|]. cbn [unline]. destruct (Ascii.eqb_spec c "010"); [exact IH|]. apply one_cons. split; [intros [E|[]]; congruence|exact IH]. Qed.
Lemma unline_id s : one_line s -> unline s = s.
Proof.
  induction s as [|c s IH]; [reflexivity|]. intros h. apply one_cons in h. destruct h as [h1 h2]. cbn [unline].
  destruct (Ascii.eqb_spec c "010") as [->|]; [exfalso; apply h1; left; reflexivity|]. rewrite IH by exact h2. reflexivity.
Qed.
Lemma lines_fold pad rows : one_line pad -> Forall one_line rows -> forall s,
  lines (fold_left (fun s line => s ++ nl ++ pad ++ line) rows s) = (lines s ++ map (append pad) rows)%list.
Proof.
  intros hp. induction rows as [|r rows IH]; intros hr s; cbn [fold_left map]; [rewrite List.app_nil_r; reflexivity|].
  inversion hr; subst. rewrite IH by assumption. rewrite lines_nl. rewrite (lines_one (pad ++ r)) by (apply one_app; split; assumption).
  rewrite <- List.app_assoc. reflexivity.
Qed.

(** ** pretty_str *)
(** What stands before the value. *)
Definition head_of (label : string) : string := if (label =? "")%string then "" else label ++ " = ".
Lemma head_one label : one_line label -> one_line (head_of label).
Proof. intros h. unfold head_of. destruct (label =? "")%string; [intros []|]. apply one_app. split; [exact h|]. intros [E|[E|[E|[]]]]; discriminate E. Qed.

(** Neither a list nor a column nor empty: the lines of str(value), the first behind the label, the others indented so that
    they stand below it.  Cutting the margin off gives str(value) back. *)
Theorem C83_aligned : forall (label : string) (a : leaf), one_line label -> lf_len a <> Some 0%nat -> is_col a = false ->
  let out := pretty label (PLeaf a) in let h := head_of label in
  map (drop (length h)) (lines out) = lines (lf_str a) /\
  exists first rest, lines out = first :: rest /\ prefix h first = true /\
    Forall (fun line => prefix (blanks (length h)) line = true) rest.
Proof.
  intros label a hl hn hc out h.
  assert (E : out = match lines (lf_str a) with [] => "" | r :: rows => fold_left (fun s line => s ++ nl ++ blanks (length h) ++ line) rows (h ++ r) end).
  { unfold out. cbn [pretty]. transitivity (pretty_body label a).
    - destruct (lf_len a) as [[|k]|]; [contradiction|reflexivity..].
    - unfold pretty_body. rewrite hc. reflexivity. }
  pose proof (lines_are_lines (lf_str a)) as hs. pose proof (lines_ne (lf_str a)) as hne.
  destruct (lines (lf_str a)) as [|r rows]; [contradiction|]. inversion hs as [|x y h1 h2]; subst x y.
  assert (L : lines out = (h ++ r) :: map (append (blanks (length h))) rows).
  { rewrite E, lines_fold by (auto using blanks_one). rewrite (lines_one (h ++ r)); [reflexivity|].
    apply one_app; split; [apply head_one, hl|exact h1]. }
  split.
  - rewrite L. cbn [map]. rewrite drop_app. f_equal. rewrite map_map. rewrite <- (map_id rows) at 2. apply map_ext.
    intros s. rewrite <- (blanks_len (length h)) at 1. apply drop_app.
  - eexists _, _. split; [exact L|]. split; [apply prefix_app|]. apply Forall_forall. intros s hi. apply in_map_iff in hi.
    destruct hi as [q [<- _]]. apply prefix_app.
Qed.
Print Assumptions C83_aligned.

(** A column of more than one entry comes on one line, as the transposed row, marked ".T". *)
Theorem C83_column : forall (label : string) (a : leaf) (k : nat), one_line label -> lf_len a = Some k -> lf_shape a = Some [k; 1%nat] ->
  (k > 1)%nat -> let out := pretty label (PLeaf a) in
  lines out = [out] /\ (one_line (lf_strT a) -> out = head_of label ++ lf_strT a ++ ".T").
Proof.
  intros label a k hl hn hs hk out.
  assert (E : out = head_of label ++ unline (lf_strT a) ++ ".T").
  { unfold out. cbn [pretty]. rewrite hn. destruct k as [|k]; [lia|]. unfold pretty_body, is_col. rewrite hs.
    destruct (Nat.ltb_spec 1 (S k)); [reflexivity|lia]. }
  split; [|intros h1; rewrite E, (unline_id _ h1); reflexivity].
  apply lines_one. rewrite E. apply one_app. split; [apply head_one, hl|]. apply one_app. split; [apply one_unline|].
  intros [X|[X|[]]]; discriminate X.
Qed.
Print Assumptions C83_column.

(** The values inside nested lists in reading order, each with its place written as an index: label[i][j]...  An empty list
    counts as a value. *)
Fixpoint places (label : string) (v : pval) : list (string * pval) :=
  match v with
  | PLeaf _ | PSeq _ [] => [(label, v)]
  | PSeq _ l => (fix go (i : nat) (l : list pval) := match l with [] => [] | x :: r => (places (label ++ "[" ++ dec i ++ "]") x ++ go (S i) r)%list end) 0%nat l
  end.
Section PvalInd.
Variable Q : pval -> Prop.
Hypothesis HL : forall a, Q (PLeaf a).
Hypothesis HS : forall e l, Forall Q l -> Q (PSeq e l).
Fixpoint pval_all (v : pval) : Q v :=
  match v with
  | PLeaf a => HL a
  | PSeq e l => HS e l ((fix go (l : list pval) : Forall Q l := match l with [] => Forall_nil Q | x :: r => Forall_cons x (pval_all x) (go r) end) l)
  end.
End PvalInd.
Definition items (label : string) := fix go (i : nat) (l : list pval) : list string :=
  match l with [] => [] | x :: r => pretty (label ++ "[" ++ dec i ++ "]") x :: go (S i) r end.
Lemma pretty_seq label e x l : pretty label (PSeq e (x :: l)) = String.concat nl (items label 0 (x :: l)).
Proof. reflexivity. Qed.
Lemma concat_lines ls : ls <> [] -> lines (String.concat nl ls) = flat_map lines ls.
Proof.
  induction ls as [|a [|b ls] IH]; intros h; [contradiction|cbn [String.concat flat_map]; rewrite List.app_nil_r; reflexivity|].
  change (String.concat nl (a :: b :: ls)) with (a ++ nl ++ String.concat nl (b :: ls)). rewrite lines_nl, IH by discriminate. reflexivity.
Qed.
Definition inside (label : string) := fix go (i : nat) (l : list pval) : list (string * pval) :=
  match l with [] => [] | x :: r => (places (label ++ "[" ++ dec i ++ "]") x ++ go (S i) r)%list end.
(** Lists: the lines are those of the values inside, in order, and nothing else. *)
Theorem C83_lists : forall (v : pval) (label : string),
  lines (pretty label v) = flat_map (fun p => lines (pretty (fst p) (snd p))) (places label v).
Proof.
  induction v as [a|e l IH] using pval_all; intros label; [cbn [places flat_map fst snd]; rewrite List.app_nil_r; reflexivity|].
  destruct l as [|x l]; [cbn [places flat_map fst snd]; rewrite List.app_nil_r; reflexivity|].
  rewrite pretty_seq. rewrite concat_lines by discriminate. change (places label (PSeq e (x :: l))) with (inside label 0 (x :: l)).
  generalize 0%nat as i. revert IH. generalize (x :: l) as k.
  induction k as [|y k IHk]; intros hF i; [reflexivity|]. inversion hF as [|a b h1 h2]; subst.
  cbn [inside items flat_map]. rewrite flat_map_app, h1. f_equal. apply IHk, h2.
Qed.
Print Assumptions C83_lists.

(** An empty list, or an empty object whose type can be called without arguments, is shown as an empty object of its type, on one
    line behind the label. *)
Theorem C83_empty : forall (label e : string) (v : pval), one_line label -> one_line e ->
  (v = PSeq e [] \/ exists a, v = PLeaf a /\ lf_len a = Some 0%nat /\ lf_new a = Some e) ->
  let out := pretty label v in
  lines out = [out] /\ prefix (label ++ " = ") out = true /\ drop (length (label ++ " = ")) out = e.
Proof.
  intros label e v hl he hv out. assert (E : out = (label ++ " = ") ++ e).
  { unfold out. rewrite app_assoc'. destruct hv as [->|[a [-> [h1 h2]]]]; [reflexivity|]. cbn [pretty]. rewrite h1, h2. reflexivity. }
  rewrite E. split; [|split; [apply prefix_app|apply drop_app]].
  apply lines_one, one_app. split; [|exact he]. apply one_app. split; [exact hl|]. intros [X|[X|[X|[]]]]; discriminate X.
Qed.
Print Assumptions C83_empty.
(** So with the label "" an empty list comes behind " = ", anything else stands alone. *)
Theorem C83_empty_label_refuted : prefix " = " (pretty "" (PSeq "[]" [])) = true /\
  forall a, lf_len a <> Some 0%nat -> is_col a = false -> one_line (lf_str a) -> pretty "" (PLeaf a) = lf_str a.
Proof.
  split; [reflexivity|]. intros a hn hc h1. cbn [pretty]. transitivity (pretty_body "" a).
  - destruct (lf_len a) as [[|k]|]; [contradiction|reflexivity..].
  - unfold pretty_body. rewrite hc, (lines_one _ h1). reflexivity.
Qed.
Print Assumptions C83_empty_label_refuted.

(** Without a label (None) it prints an array, but a list that is not empty raises TypeError. *)
Theorem C83_no_label_refuted :
  (forall a, exists s, pretty_str None (PLeaf a) = Ok s) /\
  (forall e x l, pretty_str None (PSeq e (x :: l)) = Err TypeError) /\
  (forall label v, exists s, pretty_str (Some label) v = Ok s).
Proof. split; [|split]; intros; cbn; eauto. Qed.
Print Assumptions C83_no_label_refuted.

(** ** __repr__ *)
(** A label names an attribute if they agree up to hyphens and a leading underscore. *)
Fixpoint hyphens (s : string) : string := match s with "" => "" | String c r => String (if Ascii.eqb c "-" then "_"%char else c) (hyphens r) end.
Definition bare (s : string) : string := match s with String "_" r => r | _ => s end.
Definition names (label attr : string) : bool := (bare (hyphens label) =? bare attr)%string.
(** The attributes [c] shows under another name. *)
Definition wrong (c : cls) : list (string * string) := filter (fun p => negb (names (fst p) (snd p))) (snd c).
Definition honest : list cls :=
  [repr_KalmanFilter; repr_ExtendedKalmanFilter; repr_InformationFilter; repr_SquareRootKalmanFilter; repr_MerweScaledSigmaPoints;
   repr_JulierSigmaPoints; repr_SimplexSigmaPoints; repr_CubatureKalmanFilter; repr_EnsembleKalmanFilter; repr_IMMEstimator;
   repr_GHFilterOrder; repr_GHFilter; repr_LeastSquaresFilter; repr_FadingMemoryFilter].
(** In these classes every value is shown under its own name, on lines of its own, in the order of the list. *)
Theorem C83_repr : forall (c : cls) (env : string -> pval), In c honest ->
  lines (repr c env) = (fst c :: flat_map (fun a => lines (pretty (fst a) (env (snd a)))) (snd c))%list /\
  forall label attr, In (label, attr) (snd c) -> bare (hyphens label) = bare attr.
Proof.
  intros c env hc.
  assert (T : lines (fst c) = [fst c] /\ wrong c = []).
  { repeat (destruct hc as [<-|hc]; [split; reflexivity|]). contradiction. }
  destruct T as [T W]. split.
  - unfold repr. rewrite concat_lines by discriminate. cbn [flat_map]. rewrite T. cbn [app]. f_equal.
    rewrite flat_map_concat_map, map_map, <- flat_map_concat_map. reflexivity.
  - intros label attr hi. destruct (names label attr) eqn:E; [apply String.eqb_eq, E|].
    assert (In (label, attr) (wrong c)) by (apply filter_In; split; [exact hi|cbn; rewrite E; reflexivity]). rewrite W in H. contradiction.
Qed.
Print Assumptions C83_repr.

(** Not in the others: what is shown as dim_x and dim_z (FadingKalmanFilter, FixedLagSmoother) is x, gamma (HInfinityFilter) is
    dim_u, ddx_prediction (GHKFilter) is dx_prediction, log-p (MMAEFilterBank) is p itself. *)
Theorem C83_mislabelled_refuted :
  wrong repr_FadingKalmanFilter = [("dim_x", "x"); ("dim_z", "x")] /\ wrong repr_FixedLagSmoother = [("dim_x", "x"); ("dim_z", "x")] /\
  wrong repr_HInfinityFilter = [("gamma", "dim_u")] /\ wrong repr_GHKFilter = [("ddx_prediction", "dx_prediction")] /\
  wrong repr_MMAEFilterBank = [("log-p", "p")] /\ wrong repr_UnscentedKalmanFilter = [("h", "sigmas_h")].
Proof. repeat split; reflexivity. Qed.
Print Assumptions C83_mislabelled_refuted.
(** So two objects that differ only there print the same. *)
Theorem C83_blind_refuted : forall (c : cls) (attr : string) (env env' : string -> pval),
  In (c, attr) [(repr_FadingKalmanFilter, "dim_x"); (repr_FadingKalmanFilter, "dim_z"); (repr_FixedLagSmoother, "dim_x");
                (repr_FixedLagSmoother, "dim_z"); (repr_HInfinityFilter, "gamma"); (repr_GHKFilter, "ddx_prediction")] ->
  (exists other, In (attr, other) (snd c)) /\
  ((forall a, a <> attr -> env a = env' a) -> repr c env = repr c env').
Proof.
  intros c attr env env' hi.
  assert (T : existsb (fun p => (fst p =? attr)%string) (snd c) = true /\ forallb (fun p => negb (snd p =? attr)%string) (snd c) = true).
  { repeat (destruct hi as [E|hi]; [injection E as <- <-; split; reflexivity|]). contradiction. }
  destruct T as [T1 T2]. split.
  - apply existsb_exists in T1. destruct T1 as [[l a] [h1 h2]]. exists a. apply String.eqb_eq in h2. cbn in h2. subst. exact h1.
  - intros h. unfold repr. do 2 f_equal. apply map_ext_in. intros p hp. rewrite h; [reflexivity|].
    rewrite forallb_forall in T2. specialize (T2 p hp). intros E. rewrite E, String.eqb_refl in T2. discriminate.
Qed.
Print Assumptions C83_blind_refuted.

(** repr_string shows, in the order of dir() and each under its own name, the attributes that are not methods, but for names
    with two leading underscores, or with one unless private names are asked for. *)
Inductive shows (env : string -> option pval) (private : bool) : list string -> list (string * pval) -> Prop :=
| sh_end : shows env private [] []
| sh_yes k v ks r : prefix "__" k = false -> (private = false -> prefix "_" k = false) -> env k = Some v ->
    shows env private ks r -> shows env private (k :: ks) ((k, v) :: r)
| sh_no k ks r : prefix "__" k = true \/ (private = false /\ prefix "_" k = true) \/ env k = None ->
    shows env private ks r -> shows env private (k :: ks) r.
Lemma two_under k : (substring 0 2 k =? "__")%string = prefix "__" k.
Proof.
  destruct k as [|a [|b k]]; cbn [substring prefix]; [reflexivity|..].
  - destruct (ascii_dec "_" a) as [<-|h]; [reflexivity|]. apply String.eqb_neq. congruence.
  - replace (substring 0 0 k) with "" by (destruct k; reflexivity).
    destruct (ascii_dec "_" a) as [<-|h]; [|apply String.eqb_neq; congruence].
    destruct (ascii_dec "_" b) as [<-|h]; [destruct k; reflexivity|apply String.eqb_neq; congruence].
Qed.
Lemma one_under k : (substring 0 1 k =? "_")%string = prefix "_" k.
Proof.
  destruct k as [|a k]; cbn [substring prefix]; [reflexivity|]. replace (substring 0 0 k) with "" by (destruct k; reflexivity).
  destruct (ascii_dec "_" a) as [<-|h]; [destruct k; reflexivity|apply String.eqb_neq; congruence].
Qed.
Theorem C83_repr_string : forall (name : string) (keys : list string) (env : string -> option pval) (private : bool),
  one_line name -> exists ps, shows env private keys ps /\
  lines (repr_string name keys env private) =
    ((name ++ " object")%string :: match ps with [] => [""] | _ => flat_map (fun p => lines (pretty (fst p) (snd p))) ps end)%list.
Proof.
  intros name keys env private hn.
  assert (G : exists ps, shows env private keys ps /\
    flat_map (fun key => match env key with Some val => [pretty key val] | None => [] end)
      (let keys := filter (fun key => negb (substring 0 2 key =? "__")%string) keys in
       if private then keys else filter (fun key => negb (substring 0 1 key =? "_")%string) keys)
    = map (fun p => pretty (fst p) (snd p)) ps).
  { induction keys as [|k ks [ps [IH E]]]; [exists []; split; [constructor|destruct private; reflexivity]|].
    cbv zeta in *. cbn [filter]. rewrite two_under. destruct (prefix "__" k) eqn:E2; cbn [negb].
    { exists ps. split; [apply sh_no; auto|exact E]. }
    destruct private.
    - cbn [flat_map]. destruct (env k) as [v|] eqn:Ev.
      + exists ((k, v) :: ps). split; [apply sh_yes; auto; discriminate|]. cbn [app map fst snd]. f_equal. exact E.
      + exists ps. split; [apply sh_no; auto|exact E].
    - cbn [filter]. rewrite one_under. destruct (prefix "_" k) eqn:E1; cbn [negb].
      + exists ps. split; [apply sh_no; auto|exact E].
      + cbn [flat_map]. destruct (env k) as [v|] eqn:Ev.
        * exists ((k, v) :: ps). split; [apply sh_yes; auto|]. cbn [app map fst snd]. f_equal. exact E.
        * exists ps. split; [apply sh_no; auto|exact E]. }
  destruct G as [ps [h E]]. exists ps. split; [exact h|]. unfold repr_string. cbv zeta in *. rewrite E.
  assert (A : forall r, name ++ " object" ++ nl ++ r = (name ++ " object") ++ nl ++ r) by (intros r; symmetry; apply app_assoc').
  rewrite A, lines_nl, (lines_one (name ++ " object")).
  - cbn [app]. f_equal. destruct ps as [|p ps]; [reflexivity|]. rewrite concat_lines by discriminate.
    rewrite flat_map_concat_map, map_map, <- flat_map_concat_map. reflexivity.
  - apply one_app. split; [exact hn|]. intros [X|[X|[X|[X|[X|[X|[X|[]]]]]]]]; discriminate X.
Qed.
Print Assumptions C83_repr_string.

(** ** Printing a KalmanFilter *)
Section Print.
Variable o : nops.
Variables n m l : nat.
Notation kf := (kf o n m l).
Notation kf_call := (kf_call o n m l).
Variable lpdf : M o m 1 -> M o m 1 -> M o m m -> sc o.
Variable fmin : sc o.
(** A history in which the filter is also printed. *)
Inductive ev := Call (c : kf_call) | Print.
Definition ev_run (h : list ev) (s : kf) : kf :=
  fold_left (fun s e => match e with Call c => fst (kf_step c s) | Print => kf_print lpdf fmin s end) h s.
Definition calls_of (h : list ev) : list kf_call := flat_map (fun e => match e with Call c => [c] | Print => [] end) h.
(** Everything but the three cached values. *)
Definition visible (s : kf) :=
  (kf_x s, kf_P s, kf_Q s, kf_B s, kf_F s, kf_H s, kf_R s, kf_alpha_sq s, kf_M s, kf_z s, kf_K s, kf_y s, kf_S s, kf_SI s,
   (kf_x_prior s, kf_P_prior s, kf_x_post s, kf_P_post s, kf_inv s)).
Lemma vis_step c s s' : visible s = visible s' ->
  visible (fst (kf_step c s)) = visible (fst (kf_step c s')) /\ snd (kf_step c s) = snd (kf_step c s').
Proof.
  destruct s as [x1 x2 x3 x4 x5 x6 x7 x8 x9 x10 x11 x12 x13 x14 x15 x16 x17 x18 a1 a2 a3 iv],
    s' as [y1 y2 y3 y4 y5 y6 y7 y8 y9 y10 y11 y12 y13 y14 y15 y16 y17 y18 b1 b2 b3 jv].
  unfold visible at 1 2. cbn. intros E. injection E; intros; subst. clear E.
  destruct c; unfold visible; kf_compute.
  all: repeat match goal with |- context [match ?z with None => _ | Some _ => _ end] => is_var z; destruct z end.
  all: repeat match goal with |- context [match ?z with None => _ | Some _ => _ end] => destruct z end.
  all: repeat match goal with |- context [if ?b then _ else _] => destruct b end; split; reflexivity.
Qed.
Lemma vis_print s : visible (kf_print lpdf fmin s) = visible s.
Proof.
  destruct s as [x1 x2 x3 x4 x5 x6 x7 x8 x9 x10 x11 x12 x13 x14 x15 x16 x17 x18 [a1|] [a2|] [a3|] iv]; reflexivity.
Qed.
Lemma vis_run h s s' : visible s = visible s' -> visible (ev_run h s) = visible (kf_run (calls_of h) s').
Proof.
  revert s s'. induction h as [|[c|] h IH]; intros s s' E; [exact E|..].
  - apply (IH (fst (kf_step c s)) (fst (kf_step c s'))). apply vis_step, E.
  - apply (IH (kf_print lpdf fmin s) s'). rewrite vis_print. exact E.
Qed.
Lemma print_coherent (s : kf) : coherent lpdf fmin s -> coherent lpdf fmin (kf_print lpdf fmin s).
Proof.
  intros C. replace (kf_print lpdf fmin s) with (kf_run [CLogLik lpdf; CLik lpdf fmin; CMahal] s).
  - apply run_coherent; [|exact C]. repeat constructor.
  - unfold kf_print, kf_run, kf_step. cbn [fold_left fst snd]. destruct (kf_log_likelihood lpdf s). cbn [snd].
    destruct (kf_likelihood lpdf fmin k). cbn [snd]. destruct (kf_mahalanobis k0). reflexivity.
Qed.
Lemma ev_coherent h (s : kf) : Forall (quiet lpdf fmin) (calls_of h) -> coherent lpdf fmin s -> coherent lpdf fmin (ev_run h s).
Proof.
  revert s. induction h as [|[c|] h IH]; intros s q C; [exact C|..].
  - cbn [calls_of flat_map app] in q. inversion q; subst. apply (IH (fst (kf_step c s))); [assumption|]. apply quiet_coherent; assumption.
  - apply (IH (kf_print lpdf fmin s)); [exact q|]. apply print_coherent, C.
Qed.
End Print.
Arguments Call {o n m l} c.
Arguments Print {o n m l}.

(** Printing a KalmanFilter, as often as one likes and anywhere in a history, changes no attribute but the cached likelihoods,
    then or later, and no exception of a later call. *)
Theorem C83_print_changes_no_estimate : forall (o : nops) (n m l : nat) (lpdf : M o m 1 -> M o m 1 -> M o m m -> sc o) (fmin : sc o)
    (h : list (ev o n m l)) (s : kf o n m l),
  let a := ev_run o n m l lpdf fmin h s in let b := kf_run (calls_of o n m l h) s in
  (visible o n m l a = visible o n m l b) /\ forall c, snd (kf_step c a) = snd (kf_step c b).
Proof.
  intros o n m l lpdf fmin h s a b. assert (E : visible o n m l a = visible o n m l b) by (apply vis_run; reflexivity).
  split; [exact E|]. intros c. apply (vis_step o n m l c a b E).
Qed.
Print Assumptions C83_print_changes_no_estimate.

(** Nor the likelihoods read later, for a history from a new filter without update_sequential. *)
Theorem C83_print_changes_no_likelihood : forall (o : nops) (n m l : nat) (lpdf : M o m 1 -> M o m 1 -> M o m m -> sc o) (fmin : sc o)
    (h : list (ev o n m l)) (s : kf o n m l),
  kf_loglik s = None -> kf_lik s = None -> kf_mahal s = None -> Forall (quiet lpdf fmin) (calls_of o n m l h) ->
  let a := ev_run o n m l lpdf fmin h s in let b := kf_run (calls_of o n m l h) s in
  fst (kf_log_likelihood lpdf a) = fst (kf_log_likelihood lpdf b) /\
  fst (kf_likelihood lpdf fmin a) = fst (kf_likelihood lpdf fmin b) /\
  fst (kf_mahalanobis a) = fst (kf_mahalanobis b).
Proof.
  intros o n m l lpdf fmin h s h1 h2 h3 q a b.
  assert (C : coherent lpdf fmin s) by (unfold coherent; rewrite h1, h2, h3; repeat split; discriminate).
  assert (E : visible o n m l a = visible o n m l b) by (apply vis_run; reflexivity).
  destruct (coherent_reads (ev_coherent o n m l lpdf fmin h s q C)) as [a1 [a2 a3]]. fold a in a1, a2, a3.
  destruct (coherent_reads (run_coherent q C)) as [b1 [b2 b3]]. fold b in b1, b2, b3.
  rewrite a1, a2, a3, b1, b2, b3. clear - E. unfold visible in E. injection E; intros.
  repeat match goal with H : _ = _ |- _ => first [rewrite H | clear H] end. repeat split; reflexivity.
Qed.
Print Assumptions C83_print_changes_no_likelihood.

(** With update_sequential it does: printing before it makes it report the likelihood of the measurement before. *)
Theorem C83_print_sequential_refuted :
  let k := @kf_init QO 1 1 1 (1#1024)%Q (l_inv1 QS) in
  let up := @CUpdate QO 1 1 1 (Some (q1 5)) None (Some (q1 1)) in
  let sq := @CUpdateSeq QO 1 1 1 1 (l_inv1 QS) 0 (q1 4) None (Some (q1 1)) in
  fst (kf_log_likelihood lp (ev_run QO 1 1 1 lp 0%Q [Call up; Call sq] k)) = (3#2)%Q /\
  fst (kf_log_likelihood lp (ev_run QO 1 1 1 lp 0%Q [Call up; Print; Call sq] k)) = 5%Q.
Proof. split; vm_compute; reflexivity. Qed.
Print Assumptions C83_print_sequential_refuted.

(** ** Printing an ExtendedKalmanFilter or a FadingKalmanFilter *)
Section PrintE.
Variable o : nops.
Variables n m l : nat.
Notation st := (ek_st o n m).
Variable lpdf : M o m 1 -> M o m m -> sc o.
Variable fmin : sc o.
(** A call of either class, with the configuration in force, or a print. *)
Inductive eev := ECall (c : ek_cfg o n m l * ek_call o n m l) | FCall (c : ek_cfg o n m l * fk_call o n m l) | EPrint.
Definition eev_step (e : eev) (s : st) : st * option exn :=
  match e with ECall c => ek_step c s | FCall c => fk_step c s | EPrint => (ek_print lpdf fmin s, None) end.
Definition eev_run (h : list eev) (s : st) : st := fold_left (fun s e => fst (eev_step e s)) h s.
Definition unprinted (h : list eev) : list eev := filter (fun e => match e with EPrint => false | _ => true end) h.
Fixpoint no_exception (h : list eev) (s : st) : Prop :=
  match h with [] => True | e :: h => snd (eev_step e s) = None /\ no_exception h (fst (eev_step e s)) end.
Definition e_visible (s : st) :=
  (e_x s, e_P s, e_z s, e_K s, e_y s, e_S s, e_SI s, (e_x_prior s, e_P_prior s, e_x_post s, e_P_post s)).
(** What the three properties return. *)
Definition e_reads (s : st) := (fst (ek_log_likelihood lpdf s), fst (ek_likelihood lpdf fmin s), fst (ek_mahalanobis s)).
Lemma e_vis_print s : e_visible (ek_print lpdf fmin s) = e_visible s /\ e_reads (ek_print lpdf fmin s) = e_reads s.
Proof. destruct s as [x1 x2 x3 x4 x5 x6 x7 x8 x9 x10 x11 [a1|] [a2|] [a3|]]; split; reflexivity. Qed.
Lemma e_vis_step e s s' : e_visible s = e_visible s' ->
  e_visible (fst (eev_step e s)) = e_visible (fst (eev_step e s')) /\ snd (eev_step e s) = snd (eev_step e s') /\
  (snd (eev_step e s) = None -> e_reads s = e_reads s' -> e_reads (fst (eev_step e s)) = e_reads (fst (eev_step e s'))).
Proof.
  destruct e as [[c k]|[c k]|].
  3: { intros E. cbn [eev_step fst snd]. destruct (e_vis_print s) as [h1 h2], (e_vis_print s') as [h3 h4].
       rewrite h1, h3, h2, h4. auto. }
  all: destruct s as [x1 x2 x3 x4 x5 x6 x7 x8 x9 x10 x11 a1 a2 a3], s' as [y1 y2 y3 y4 y5 y6 y7 y8 y9 y10 y11 b1 b2 b3].
  all: unfold e_visible at 1 2; cbn; intros E; injection E; intros; subst; clear E.
  all: destruct k; unfold eev_step, ek_step, fk_step, ek_update, fk_update, ek_predict_update, ek_predict, fk_predict, ek_skip, ek_correct; cbn.
  all: repeat match goal with |- context [match ?z with None => _ | Some _ => _ end] => is_var z; first [constr_eq z a1; fail 1 | constr_eq z a2; fail 1 | constr_eq z a3; fail 1 | constr_eq z b1; fail 1 | constr_eq z b2; fail 1 | constr_eq z b3; fail 1 | destruct z] end.
  all: repeat match goal with |- context [ec_inv ?c ?S] => destruct (ec_inv c S) end.
  all: split; [reflexivity|]; split; [reflexivity|]; intros hn hr; first [discriminate hn|reflexivity|idtac].
  all: destruct a1, a2, a3, b1, b2, b3; exact hr.
Qed.
Lemma e_run h s s' : e_visible s = e_visible s' ->
  e_visible (eev_run h s) = e_visible (eev_run (unprinted h) s') /\
  (no_exception h s -> e_reads s = e_reads s' -> e_reads (eev_run h s) = e_reads (eev_run (unprinted h) s')).
Proof.
  revert s s'. induction h as [|e h IH]; intros s s' E; [split; [exact E|auto]|].
  destruct (e_vis_step e s s' E) as [h1 [h2 h3]].
  assert (G : (exists c, unprinted (e :: h) = c :: unprinted h /\ e = c) \/ (unprinted (e :: h) = unprinted h /\ e = EPrint)).
  { destruct e; [left; eexists; split; reflexivity..|right; split; reflexivity]. }
  destruct G as [[c [G <-]]|[G ->]]; rewrite G.
  - destruct (IH _ _ h1) as [i1 i2]. split; [exact i1|]. intros [n1 n2] hr. apply i2; [exact n2|]. apply h3; assumption.
  - destruct (e_vis_print s) as [p1 p2]. destruct (IH (ek_print lpdf fmin s) s') as [i1 i2]; [congruence|].
    split; [exact i1|]. intros [n1 n2] hr. apply i2; [exact n2|congruence].
Qed.
End PrintE.
Arguments ECall {o n m l} c.
Arguments FCall {o n m l} c.
Arguments EPrint {o n m l}.
(** Printing changes nothing but the cached values, and no value of the likelihood properties either unless a call raised. *)
Theorem C83_print_ekf : forall (o : nops) (n m l : nat) (lpdf : M o m 1 -> M o m m -> sc o) (fmin : sc o)
    (h : list (eev o n m l)) (s : ek_st o n m),
  let a := eev_run o n m l lpdf fmin h s in let b := eev_run o n m l lpdf fmin (unprinted o n m l h) s in
  e_visible o n m a = e_visible o n m b /\
  (no_exception o n m l lpdf fmin h s ->
   fst (ek_log_likelihood lpdf a) = fst (ek_log_likelihood lpdf b) /\
   fst (ek_likelihood lpdf fmin a) = fst (ek_likelihood lpdf fmin b) /\
   fst (ek_mahalanobis a) = fst (ek_mahalanobis b)).
Proof.
  intros o n m l lpdf fmin h s a b. destruct (e_run o n m l lpdf fmin h s s eq_refl) as [h1 h2]. split; [exact h1|].
  intros hn. specialize (h2 hn eq_refl). unfold e_reads in h2. fold a b in h2. injection h2; auto.
Qed.
Print Assumptions C83_print_ekf.
(** If a call raised, it can: the update that finds S singular (the second perfect measurement) keeps the cached
    value but replaces S. *)
Theorem C83_print_ekf_refuted :
  let c : ek_cfg QO 1 1 1 := mkEC (q1 1) None (q1 1) (q1 1) (l_inv1 QS) in
  let up : eev QO 1 1 1 := ECall (c, EUpdate (Some (q1 5)) (fun _ => q1 1) (fun x => x) (Some (@Scal QO 1 0%Q)) msub) in
  let lpS : M QO 1 1 -> M QO 1 1 -> sc QO := fun _ S => mget S 0 0 in
  let s := @ek_init QO 1 1 (1#1024)%Q in
  fst (ek_log_likelihood lpS (eev_run QO 1 1 1 lpS 0%Q [up; up] s)) = 0%Q /\
  fst (ek_log_likelihood lpS (eev_run QO 1 1 1 lpS 0%Q [up; EPrint; up] s)) = 1%Q.
Proof. split; vm_compute; reflexivity. Qed.
Print Assumptions C83_print_ekf_refuted.

(** ** Examples *)
Definition cov : leaf := mkLeaf (Some 2%nat) None (Some [2%nat; 2%nat]) ("[[4.  0.1]" ++ nl ++ " [0.1 5. ]]") "".
Definition col : leaf := mkLeaf (Some 3%nat) None (Some [3%nat; 1%nat]) ("[[1]" ++ nl ++ " [2]" ++ nl ++ " [3]]") "[[1 2 3]]".
Definition num : leaf := mkLeaf None None None "7" "".
(** The docstring's. *)
Example C83_docstring :
  lines (pretty "cov" (PLeaf cov)) = ["cov = [[4.  0.1]"; "       [0.1 5. ]]"] /\ pretty "x" (PLeaf col) = "x = [[1 2 3]].T" /\
  map fst (places "q" (PSeq "[]" [PLeaf num; PSeq "()" [PLeaf num; PLeaf num]])) = ["q[0]"; "q[1][0]"; "q[1][1]"] /\
  lines (pretty "q" (PSeq "[]" [PLeaf num; PSeq "[]" []; PSeq "()" [PLeaf num]])) = ["q[0] = 7"; "q[1] = []"; "q[2][0] = 7"].
Proof. repeat split; reflexivity. Qed.
Example C83_repr_string_example :
  lines (repr_string "Foo" ["__init__"; "_a"; "run"; "b"] (fun k => if (k =? "run")%string then None else Some (PLeaf num)) false)
  = ["Foo object"; "b = 7"].
Proof. reflexivity. Qed.
Example C83_applies : one_line "cov" /\ lf_len cov <> Some 0%nat /\ is_col cov = false /\ List.length (lines (lf_str cov)) = 2%nat /\
  Forall (quiet lp 0%Q) (calls_of QO 1 1 1 [Call (CUpdate (Some (q1 5)) None (Some (q1 1))); Print; Call (CPredict None None None None)]).
Proof.
  split; [intros [E|[E|[E|[]]]]; discriminate E|]. split; [discriminate|]. split; [reflexivity|]. split; [reflexivity|]. repeat constructor.
Qed.
