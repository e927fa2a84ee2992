(** Vocabulary of PropClassNames.v: a run of equivalence_class with renamed variables. *)
From Coq Require Import ZArith List.
From mathcomp Require Import all_ssreflect all_algebra all_fingroup.
From Verif Require Import Base GraphSpec RenameSpec NumModel ScoreModel CacheSpec MainModel MainSpec NamesSpec.
Set Implicit Arguments.
Unset Strict Implicit.
Unset Printing Implicit Defensive.
Import Order.Theory GRing.Theory Num.Theory.
Local Open Scope ring_scope.

Section ClassNames.
Variables (F : realFieldType) (p e : nat) (f g : nat -> nat) (t : 'S_p).

(** The sample with renamed variables: the columns are exchanged. *)
Definition rename_sample (X : seq 'rV[F]_p) : seq 'rV[F]_p := [seq col_perm t x | x : 'rV[F]_p <- X].

(** w' is w for the renamed variables: the numerical functions do not look at names, the shuffles of the rows are the same and
    so are the random draws for every pair of variables. *)
Record renamed_world (w w' : world F p e) : Prop := RenamedWorld {
  rw_log : w_log w' = w_log w;
  rw_pi : w_pi w' = w_pi w;
  rw_sqrtm : forall X, w_sqrtm w' (rename_mx t X) = rename_mx t (w_sqrtm w X);
  rw_cvx : forall l (m : model F p l e), square p (mA m) -> w_cvx w' (rename_model g t m) = omap (rename_mx t) (w_cvx w m);
  rw_svd : forall X, w_svd w' (rename_mx t X) = (row_perm t (w_svd w X).1, (w_svd w X).2);
  rw_sqrt : w_sqrt w' = w_sqrt w;
  rw_finite : forall X, w_finite w' (rename_mx t X) = w_finite w X;
  rw_cov : forall X, w_cov w' (rename_sample X) = rename_mx t (w_cov w X);
  rw_shuffle : forall s k X, w_shuffle w' s k (rename_sample X) = rename_sample (w_shuffle w s k X);
  rw_rnds : forall n k i, w_rnds w' n k i = rename_draws t (w_rnds w n k) i;
  rw_fuel : w_fuel w' = w_fuel w }.

(** The weights of the edges of A differ and are not zero. *)
Definition different_weights (A : mat) (B : 'M[F]_p) : Prop := forall i j : 'I_p, edge A i j ->
  B i j <> 0 /\ forall i' j' : 'I_p, edge A i' j' -> `|B i j| = `|B i' j'| -> i = i' /\ j = j'.

(** The noise-term variances of different variables vary differently. *)
Definition different_variances (l : nat) (m : model F p l e) : Prop :=
  injective (fun j => variance (fun k => momegas m k j)).

(** There are no ties in the models fitted with all variables as targets to subgraphs of the candidates. *)
Definition no_ties (l : nat) (cf : conf F p l e) (rnds : nat -> nat -> 'M[F]_p * 'M[F]_p) (prune : bool) (Gs : seq mat) : Prop :=
  forall A k m s, graph p A -> (exists2 G, List.In G Gs & subgraph A G) -> fit cf A (iota 0 p) None (rnds k) = Ok (m, s) ->
  (prune = true -> different_weights A (mB m)) /\ different_variances m.

(** The result r' is the result r, renamed. *)
Definition renamed_class (r r' : res (mat * seq nat * any_model F p e)) : Prop :=
  match r, r' with
  | Ok (P, J, m), Ok (P', J', m') =>
      [/\ P' = rename p g P, same_set J' (List.map f J) & m' = existT (fun l => model F p l e) (projT1 m) (rename_model g t (projT2 m))]
  | Err x, Err x' => x' = x
  | _, _ => False
  end.
End ClassNames.
