(** Property C104: utils.delete and the versions of numpy. *)
From Coq Require Import List Arith.
Import ListNotations.
From Verif Require Import Base UtilModel UtilSpec UtilProofs.

(** C104: the masked elements are removed, for all versions but 1.2 to 1.9 and 1.100 on (the package requires 1.17.0). *)
Theorem C104_removes : forall (V : Type) (a b c : nat) (l : list V) (mask : list bool),
  a <> 1 \/ b < 2 \/ 10 <= b < 100 -> length mask = length l ->
  exists r, delete (a, b, c) l mask = Ok r /\ unmasked l mask r.
Proof. exact (fun V a b c => delete_unmasked V (a, b, c)). Qed.
Print Assumptions C104_removes.

(** C104: the versions are compared as strings, which puts 1.2 to 1.9 after 1.19.0: wrong elements are removed. *)
Theorem C104_single_digit : forall b c, 2 <= b < 10 -> exists (l : list nat) mask r,
  length mask = length l /\ delete (1, b, c) l mask = Ok r /\ ~ unmasked l mask r.
Proof. exact delete_single. Qed.
Print Assumptions C104_single_digit.
