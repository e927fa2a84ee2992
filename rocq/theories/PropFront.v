(** Property C146: the exceptions equivalence_class raises for the argument data. *)
From Coq Require Import List QArith.
From mathcomp Require Import all_ssreflect.
From Verif Require Import Base NdModel FoldProofs FrontModel FrontSpec FrontProofs.
Set Implicit Arguments.
Unset Strict Implicit.
Unset Printing Implicit Defensive.
Local Close Scope Q_scope.

(** C146 is false: a tuple (or an array) of samples is no list, but is accepted like one. *)
Theorem C146_tuple_refuted : forall (V C : Type) shuffle (cov : nd V -> C) cov_fails (xs : seq (element V)) w,
  permutes shuffle -> covs_work cov_fails -> (forall x, List.In x xs -> sample_of w 8 x) ->
  exists cs ns, [/\ fit_front shuffle cov cov_fails true (TupleOf xs) thirds = Ok (cs, ns),
    size cs = size xs, size ns = size xs & forall n, List.In n ns -> (2 <= n)%N].
Proof. exact @front_tuple. Qed.
Print Assumptions C146_tuple_refuted.

(** And arrays with one dimension are a list of arrays that is not valid, but raise neither TypeError nor ValueError. *)
Theorem C146_one_dim_refuted : forall (V C : Type) shuffle (cov : nd V -> C) cov_fails solver ratios (xs : seq (element V)),
  permutes shuffle -> three_folds ratios -> (forall x, List.In x xs -> exists rows, x = Arr [::] rows) -> xs <> [::] ->
  (forall fold, (forall x, List.In x fold -> exists rows, x = Arr [::] rows) -> cov_fails fold = false) ->
  fit_front shuffle cov cov_fails solver (ListOf xs) ratios = Err IndexError.
Proof. exact @front_one_dim. Qed.
Print Assumptions C146_one_dim_refuted.

(** What holds: with the default folds, a list of two-dimensional arrays with the same number of columns and at least eight rows is
    accepted.  (Missing: fewer rows, see C106.) *)
Theorem C146_accepts_partial : forall (V C : Type) shuffle (cov : nd V -> C) cov_fails (xs : seq (element V)) w,
  permutes shuffle -> covs_work cov_fails -> (forall x, List.In x xs -> sample_of w 8 x) ->
  exists cs ns, [/\ fit_front shuffle cov cov_fails true (ListOf xs) thirds = Ok (cs, ns),
    size cs = size xs, size ns = size xs & forall n, List.In n ns -> (2 <= n)%N].
Proof. exact @front_list. Qed.
Print Assumptions C146_accepts_partial.

(** A value that is no sequence, or has an element without a length, raises TypeError. *)
Theorem C146_type_partial : forall (V C : Type) shuffle (cov : nd V -> C) cov_fails solver ratios, three_folds ratios ->
  fit_front shuffle cov cov_fails solver (@NoSequence V) ratios = Err TypeError /\
  forall xs, List.In (@NoLen V) xs -> fit_front shuffle cov cov_fails solver (ListOf xs) ratios = Err TypeError.
Proof. exact @front_type. Qed.
Print Assumptions C146_type_partial.

(** An element that is a list raises TypeError, or ValueError if numpy cannot compute the covariances of the test folds. *)
Theorem C146_rows_partial : forall (V C : Type) shuffle (cov : nd V -> C) cov_fails solver ratios (xs : seq (element V)) r,
  permutes shuffle -> three_folds ratios -> List.In (Rows r) xs ->
  fit_front shuffle cov cov_fails solver (ListOf xs) ratios = Err TypeError \/
  fit_front shuffle cov cov_fails solver (ListOf xs) ratios = Err ValueError.
Proof. exact @front_rows. Qed.
Print Assumptions C146_rows_partial.

(** Arrays with different numbers of columns raise ValueError. *)
Theorem C146_columns_partial : forall (V C : Type) shuffle (cov : nd V -> C) cov_fails solver ratios (xs : seq (element V)) x x' w w',
  permutes shuffle -> three_folds ratios -> (forall x, List.In x xs -> exists w, columns w x) ->
  List.In x xs -> List.In x' xs -> columns w x -> columns w' x' -> w <> w' ->
  fit_front shuffle cov cov_fails solver (ListOf xs) ratios = Err ValueError.
Proof. exact @front_widths. Qed.
Print Assumptions C146_columns_partial.

(** So does an unknown B_solver. *)
Theorem C146_solver_partial : forall (V C : Type) shuffle (cov : nd V -> C) cov_fails ratios (xs : seq (element V)),
  permutes shuffle -> three_folds ratios -> (forall x, List.In x xs -> exists w, columns w x) ->
  fit_front shuffle cov cov_fails false (ListOf xs) ratios = Err ValueError.
Proof. exact @front_solver. Qed.
Print Assumptions C146_solver_partial.
