(** * FixedLagSmoother: numbers, and a claim that fails (C49). *)
From Coq Require Import List Arith Bool ZArith QArith.
From Verif Require Import Ops ListOps Model_FLS Spec_FLS Prop_UKF_ex.
Import ListNotations.
Set Implicit Arguments.
Unset Strict Implicit.
Open Scope Q_scope.

Definition fl1 (N : nat) : fls_cfg QO 1 1 1 := mkFC (o := QO) (n := 1) (m := 1) (l := 1) (q11 1) (q11 1) (q11 1) (q11 1) (q11 2) (Some N) (@l_inv1 QS).
Definition fl1_s : fls QO 1 1 := fls_init QO 1 1 (Some 1%nat).
Definition reds (xs : list (list (list Q))) := map (map (map Qred)) xs.
Definition out (r : fls QO 1 1 * list (M QO 1 1) * option exn) :=
  let '(s, hs, e) := r in (fl_count s, reds (match fl_xs s with Some xs => xs | None => [] end), reds hs, e).
Definition steps (zs : list Q) : list (M QO 1 1 * option (M QO 1 1)) := map (fun z => (q11 z : M QO 1 1, None)) zs.

Example C49_numbers :
  out (fls_run (fl1 1) (steps [3; 8; 21]) fl1_s) =
    (3%nat, [[[2]]; [[109 # 32]]; [[16487 # 1764]]], [[[2]]; [[23 # 4]]; [[319 # 21]]], None) /\
  rmap (fun r => (reds (fst r), reds (snd r))) (fls_batch (fl1 1) (map q11 [3; 8; 21]) 1 None fl1_s) =
    Ok ([[[2]]; [[109 # 32]]; [[16487 # 1764]]], [[[2]]; [[23 # 4]]; [[319 # 21]]]) /\
  fls_batch (fl1 1) (map q11 [3; 8; 21]) 1 (Some (map q11 [0; 0])) fl1_s = Err IndexError /\
  snd (fls_run (fl1 1) (steps [3; 8; 21]) fl1_s) = None.
Proof. vm_compute; repeat split. Qed.

(** With lag 1 the smoother's window holds only the newest state, so its smoothed entries should be the estimates.  They are
    not, from the second measurement on: estimates 2, 23/4, 319/21 against 2, 109/32, 16487/1764. *)
Theorem C49_lag_one_is_estimate_refuted :
  exists zs, let '(s, hs, e) := fls_run (fl1 1) (steps zs) fl1_s in
  e = None /\ match fl_xs s with Some xs => reds xs <> reds hs | None => False end.
Proof. exists [3; 8]. vm_compute. split; [reflexivity|discriminate]. Qed.
Print Assumptions C49_lag_one_is_estimate_refuted.
