(** Examples for C146. *)
From Coq Require Import List QArith.
From mathcomp Require Import all_ssreflect.
From Verif Require Import Base NdModel FoldProofs FrontModel FrontSpec FrontProofs PropFront.
Set Implicit Arguments.
Unset Strict Implicit.
Unset Printing Implicit Defensive.
Local Close Scope Q_scope.

(** n rows of w numbers *)
Definition ex_rows (n w : nat) : seq (seq nat) := [seq [seq (i * w + j)%N | j <- iota 0 w] | i <- iota 0 n].
(** The shuffle reverses the rows, a covariance is replaced by the shape, np.cov takes at most two dimensions *)
Definition ex_shuffle (e : nat) (l : seq (seq nat)) : seq (seq nat) := List.rev l.
Definition ex_fails (fold : seq (element nat)) : bool := has (fun x => if x is Arr s _ then (1 < size s)%N else false) fold.
Definition ex_front := fit_front ex_shuffle (@nshape nat) ex_fails.

Lemma ex_permutes : permutes ex_shuffle.
Proof. by move=> e l; apply/Permutation.Permutation_sym/Permutation.Permutation_rev. Qed.
Lemma ex_works : covs_work ex_fails.
Proof. by move=> w; elim=> [|x fold IH] //= H; rewrite IH; [case: (H x (or_introl erefl)) => r [-> _] | move=> y Hy; apply: H; right]. Qed.

Definition ex_samples := [:: Arr [:: 2] (ex_rows 8 2); Arr [:: 2] (ex_rows 10 2)].
Lemma ex_sample x : List.In x ex_samples -> sample_of 2 8 x.
Proof. by case=> [<-|[<-|[]]]; eexists. Qed.

Example C146_tuple_ex :
  (exists cs ns, [/\ ex_front true (TupleOf ex_samples) thirds = Ok (cs, ns),
     size cs = 2, size ns = 2 & forall n, List.In n ns -> (2 <= n)%N]) /\
  ex_front true (TupleOf ex_samples) thirds = Ok ([:: [:: 4; 2]; [:: 5; 2]], [:: 4; 5]).
Proof. by split; [exact: (C146_tuple_refuted _ ex_permutes ex_works ex_sample) | vm_compute]. Qed.

Example C146_accepts_ex : ex_front true (ListOf ex_samples) thirds = Ok ([:: [:: 4; 2]; [:: 5; 2]], [:: 4; 5]).
Proof. by vm_compute. Qed.

(** Two arrays with one dimension *)
Definition ex_flat := [:: Arr [::] (ex_rows 8 1); Arr [::] (ex_rows 8 1)].
Example C146_one_dim_ex : ex_front true (ListOf ex_flat) thirds = Err IndexError.
Proof.
apply: (C146_one_dim_refuted _ _ ex_permutes thirds_three) => //.
  by move=> x [<-|[<-|[]]]; eexists.
by elim=> [|x fold IH] //= H; rewrite IH; [case: (H x (or_introl erefl)) => r -> | move=> y Hy; apply: H; right].
Qed.

Example C146_type_ex : ex_front true (@NoSequence nat) thirds = Err TypeError /\
  ex_front true (ListOf [:: Arr [:: 2] (ex_rows 8 2); @NoLen nat]) thirds = Err TypeError.
Proof. by case: (C146_type_partial ex_shuffle (@nshape nat) ex_fails true thirds_three) => H H'; split; last by apply: H'; right; left. Qed.

Example C146_rows_ex : ex_front true (ListOf [:: Arr [:: 2] (ex_rows 8 2); Rows (ex_rows 8 2)]) thirds = Err TypeError.
Proof. by vm_compute. Qed.

Example C146_columns_ex : ex_front true (ListOf [:: Arr [:: 2] (ex_rows 8 2); Arr [:: 3] (ex_rows 8 3)]) thirds = Err ValueError.
Proof.
apply: (@C146_columns_partial _ _ _ _ _ _ _ _ (Arr [:: 2] (ex_rows 8 2)) (Arr [:: 3] (ex_rows 8 3)) 2 3 ex_permutes thirds_three) => //.
- by move=> x [<-|[<-|[]]]; [exists 2 | exists 3]; do 2!eexists.
- by left.
- by right; left.
- by do 2!eexists.
by do 2!eexists.
Qed.

Example C146_solver_ex : ex_front false (ListOf ex_samples) thirds = Err ValueError.
Proof.
apply: (C146_solver_partial _ _ ex_permutes thirds_three) => x /ex_sample [r [-> _]].
by exists 2, [::], r.
Qed.
