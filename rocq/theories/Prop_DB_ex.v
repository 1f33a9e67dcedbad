(** * The discrete Bayes filter: numbers, and claims that fail (C31). *)
From Coq Require Import List Arith Bool ZArith QArith Floats.
From Verif Require Import Ops ListOps Model_DB.
Import ListNotations.
Set Implicit Arguments.
Unset Strict Implicit.
Open Scope Q_scope.

(** The docstring's reading: kernel [.1, .7, .2] and offset 3 is 2, 3 or 4 places to the right. *)
Example C31_numbers :
  db_predict (o := QS) [1; 0; 0; 0; 0; 0] 3 [1#10; 7#10; 2#10] true 0 = [0; 0; 1#10; 7#10; 1#5; 0] /\
  db_predict (o := QS) [0; 0; 0; 0; 1; 0] 3 [1#10; 7#10; 2#10] true 0 = [1#10; 7#10; 1#5; 0; 0; 0] /\
  db_predict (o := QS) [0; 0; 0; 0; 1; 0] (-3) [1#10; 7#10; 2#10] true 0 = [1#10; 7#10; 1#5; 0; 0; 0] /\
  db_predict (o := QS) [1#2; 0; 1#2] 1 [1#10; 7#10; 2#10] false 0 = [1#20; 7#20; 1#10] /\
  db_update (o := QS) [1; 3; 1] [1#4; 1#4; 1#2] = Ok [1#6; 1#2; 1#3] /\
  db_run (o := QS) [1#10; 8#10; 1#10] [(1%Z, [3; 1; 1]); (1%Z, [1; 3; 1])] [1#3; 1#3; 1#3] = Ok [2#17; 13#17; 2#17].
Proof. vm_compute. repeat split. Qed.

(** On a line the code is not the law of the net move: something that is moved off the end and back by the noise, ending
    where it started, is lost. *)
Theorem C31_constant_is_net_move_refuted :
  db_predict (o := QS) [0; 0; 1] 1 [1; 0; 0] false 0 = [0; 0; 0].
Proof. vm_compute; reflexivity. Qed.
Print Assumptions C31_constant_is_net_move_refuted.

(** "cval used to fill in missing elements": the filling is probability mass out of nothing. *)
Theorem C31_fill_mass_refuted :
  db_predict (o := QS) [1#2; 1#2] 1 [1] false (1#2) = [1#2; 1#2] /\
  db_predict (o := QS) [0; 1] (-1) [1] false (1#2) = [1; 1#2].
Proof. vm_compute; repeat split. Qed.
Print Assumptions C31_fill_mass_refuted.

(** Two kernels of even length: the one-step kernel would be centred one place off (compare C31_wrap_compose). *)
Theorem C31_even_kernels_refuted :
  db_predict (o := QS) (db_predict (o := QS) [1; 0; 0; 0] 0 [1#2; 1#2] true 0) 0 [1#2; 1#2] true 0 = [1#4; 0; 1#4; 1#2] /\
  db_predict (o := QS) [1; 0; 0; 0] 0 [1#4; 1#2; 1#4] true 0 = [1#2; 1#4; 0; 1#4].
Proof. vm_compute; repeat split. Qed.
Print Assumptions C31_even_kernels_refuted.

(** A measurement the prior excludes: every entry of the posterior is nan (binary64). *)
Theorem C31_impossible_measurement_refuted :
  forall fexp flog, exists a b, db_update (o := floatS fexp flog) [1; 0]%float [0; 1]%float = Ok [a; b] /\ is_nan a = true /\ is_nan b = true.
Proof. intros; eexists _, _; split; [vm_compute; reflexivity|vm_compute; split; reflexivity]. Qed.
Print Assumptions C31_impossible_measurement_refuted.
