(** * C84 in binary64: a mode of probability zero. *)
From Coq Require Import List Floats.
From Verif Require Import Ops ListOps Model_KF Model_MM.
Import ListNotations.
Local Notation float := Coq.Floats.PrimFloat.float.

Definition fid (x : float) : float := x.
Definition FO := floatO fid fid.
Definition f1 (a : float) : M FO 1 1 := [[a]]%float.
Definition new_kf : kf FO 1 1 1 := @kf_init FO 1 1 1 0x1p-1022%float (l_inv1 (floatS fid fid)).
Definition bank : filt FO 1 1 1 (kf FO 1 1 1) := @kf_filt FO 1 1 1 (fun _ _ _ => 1%float) 0x1p-1022%float.
Definition eye : M FO 2 2 := [[1; 0]; [0; 1]]%float.
Definition two : list (kf FO 1 1 1) := [set_kf_x (f1 3) new_kf; new_kf].
Definition sure : M FO 1 2 := [[1; 0]]%float.
Definition nan1 (A : M FO 1 1) : bool := PrimFloat.is_nan (mget A 0 0).

(** The agreement of C84_no_switching needs every probability to be positive.  If one is zero (here mu = [1, 0]) the
    IMMEstimator divides zero by zero: the first predict gives the impossible mode's filter a NaN x and P, and the
    estimator too, although the probabilities are the numbers 1 and 0 and the possible mode's filter is as it should be.  The
    MMAEFilterBank's filters and probabilities stay numbers. *)
Theorem C84_impossible_mode_refuted :
  let s := imm_run bank eye [IPredict 1 None] (imm_init bank eye two sure) in
  snd (imm_predict bank None (imm_init bank eye two sure)) = None /\
  nan1 (i_x (imm_init bank eye two sure)) = false /\ nan1 (i_P (imm_init bank eye two sure)) = false /\
  nan1 (i_x s) = true /\ nan1 (i_P s) = true /\ i_mu s = sure /\
  map (fun f => (nan1 (kf_x f), nan1 (kf_P f))) (i_filters s) = [(false, false); (true, true)] /\
  match mmae_run bank [APredict 1 1 None] (mmae_init bank (hd new_kf two) two sure None None) with
  | Some a => a_p a = sure /\ map (fun f => (nan1 (kf_x f), nan1 (kf_P f))) (a_filters a) = [(false, false); (false, false)]
  | None => False
  end.
Proof. vm_compute. repeat split. Qed.
Print Assumptions C84_impossible_mode_refuted.
