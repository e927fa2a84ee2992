(** Property C106: the sizes of the folds equivalence_class splits the data in. *)
From Coq Require Import List Arith QArith Permutation.
Import ListNotations.
From Verif Require Import Base ListModel FoldProofs.
Open Scope nat_scope.

(** C106 holds of samples with eight observations or more: with the default folds each sample of each fold has two. *)
Theorem C106_enough_partial : forall (A : Type) (shuffle : nat -> list A -> list A) data,
  (forall e l, Permutation (shuffle e l) l) -> (forall s, In s data -> 8 <= length s) ->
  exists tr tg ti, split_data shuffle data thirds = Ok [tr; tg; ti] /\
    forall f s, In f [tr; tg; ti] -> In s f -> 2 <= length s.
Proof. exact @folds_enough. Qed.
Print Assumptions C106_enough_partial.

(** With three to seven observations the sample passes the check on the training data, but the last fold has no covariance. *)
Theorem C106_small_refuted : forall (A : Type) (shuffle : nat -> list A -> list A) data e s,
  (forall e l, Permutation (shuffle e l) l) -> nth_error data e = Some s -> 3 <= length s <= 7 ->
  exists tr tg ti, split_data shuffle data thirds = Ok [tr; tg; ti] /\ 2 <= length (nth e tr []) /\ length (nth e ti []) <= 1.
Proof. exact @folds_small. Qed.
Print Assumptions C106_small_refuted.
