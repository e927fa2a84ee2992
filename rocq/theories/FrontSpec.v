(** Vocabulary for C146. *)
From Coq Require Import List QArith Permutation.
From mathcomp Require Import all_ssreflect.
From Verif Require Import Base FrontModel.
Set Implicit Arguments.
Unset Strict Implicit.
Unset Printing Implicit Defensive.

(** A sample as documented: a two-dimensional array with w columns and at least n rows *)
Definition sample_of (V : Type) (w n : nat) (x : element V) : Prop :=
  exists rows, x = Arr [:: w] rows /\ (n <= size rows)%N.

(** An array with at least two dimensions, the second being w *)
Definition columns (V : Type) (w : nat) (x : element V) : Prop := exists s rows, x = Arr (w :: s) rows.

(** rng.shuffle permutes the rows *)
Definition permutes (V : Type) (shuffle : nat -> seq (seq V) -> seq (seq V)) : Prop := forall e l, Permutation (shuffle e l) l.

(** Valid folds: three ratios that are not negative and sum to 1 *)
Definition three_folds (ratios : seq Q) : Prop :=
  [/\ size ratios = 3%N, forall r, List.In r ratios -> (0 <= r)%Q & (fold_right Qplus 0 ratios == 1)%Q].

(** np.cov and np.array work for a fold of samples of w variables with two observations or more *)
Definition covs_work (V : Type) (cov_fails : seq (element V) -> bool) : Prop :=
  forall w fold, (forall x, List.In x fold -> sample_of w 2%N x) -> cov_fails fold = false.
