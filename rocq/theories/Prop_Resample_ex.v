(** * Resampling: numbers, and where rounding breaks the exact result (C32, C33). *)
From Coq Require Import List Arith Bool ZArith QArith Qround Floats.
From Verif Require Import Ops ListOps Model_Resample.
Import ListNotations.
Set Implicit Arguments.
Unset Strict Implicit.
Open Scope Q_scope.

Example C32_numbers :
  systematic_resample (o := QS) [1#10; 1#2; 0; 2#5] (1#2) = Ok [1; 1; 3; 3]%nat /\
  stratified_resample (o := QS) [1#10; 1#2; 0; 2#5] [1#5; 1#5; 9#10; 1#10] = Ok [0; 1; 3; 3]%nat /\
  multinomial_resample (o := QS) (searchsorted (o := QS)) [1#10; 1#2; 0; 2#5] [1#20; 1#2; 3#5; 9#10] = Ok [0; 1; 1; 3]%nat /\
  residual_resample (o := QS) (searchsorted (o := QS)) Qfloor [1#2; 2#5; 1#10] [9#10] = Ok [0; 1; 1]%nat.
Proof. vm_compute; repeat split. Qed.

(** Ten equal weights 0.1 in binary64: their cumulative sum ends at 0.9999999999999999, and a draw close to 1 makes the last
    position 1.0 (or more than that sum): the loop runs off the end. *)
Theorem C32_float_rounding_refuted : forall fexp flog,
  systematic_resample (o := floatS fexp flog) (repeat 0.1%float 10) 0x1.fffffffffffffp-1%float = Err IndexError /\
  stratified_resample (o := floatS fexp flog) (repeat 0.1%float 10) (repeat 0x1.fffffffffffffp-1%float 10) = Err IndexError /\
  PrimFloat.ltb 0x1.fffffffffffffp-1%float 1%float = true.
Proof. intros; vm_compute; repeat split. Qed.
Print Assumptions C32_float_rounding_refuted.

(** Weights whose binary64 sum is exactly 1: four times 1/4.  The position itself rounds up to 1. *)
Theorem C32_float_position_refuted : forall fexp flog,
  fold_left PrimFloat.add (repeat 0.25%float 4) 0%float = 1%float /\
  systematic_resample (o := floatS fexp flog) (repeat 0.25%float 4) 0x1.fffffffffffffp-1%float = Err IndexError.
Proof. intros; vm_compute; repeat split. Qed.
Print Assumptions C32_float_position_refuted.
