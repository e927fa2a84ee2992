(** Instances of C104. *)
From Coq Require Import List Arith.
Import ListNotations.
From Verif Require Import Base UtilModel UtilSpec PropUtil.

Example C104_ex : delete (1, 26, 4) [5; 6; 7] [true; false; true] = Ok [6] /\
  delete (1, 17, 0) [5; 6; 7] [true; false; true] = Ok [6] /\ delete (2, 0, 1) [5; 6; 7] [true; false; true] = Ok [6] /\
  delete (1, 9, 3) [5; 6; 7] [true; false; true] = Ok [7].
Proof. repeat split; vm_compute; reflexivity. Qed.
Example C104_unmasked_ex : exists r, delete (1, 26, 4) [5; 6; 7] [true; false; true] = Ok r /\ unmasked [5; 6; 7] [true; false; true] r.
Proof. apply C104_removes; [right; right; split; repeat constructor|reflexivity]. Qed.
