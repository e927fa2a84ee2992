(** Properties C100 and C102: what the score does not depend on. *)
From Coq Require Import ZArith List.
From mathcomp Require Import all_ssreflect all_algebra all_fingroup.
From Verif Require Import Base GraphModel GraphSpec RenameSpec NumModel NumSpec GradSpec.
From Verif Require Import EquivProofs RenScoreProofs.
Set Implicit Arguments.
Unset Strict Implicit.
Unset Printing Implicit Defensive.
Import Order.Theory GRing.Theory Num.Theory.
Local Open Scope ring_scope.

(** C100: the score of a model depends on its entailed covariances only, not on its graph or the number of latents. *)
Theorem C100_entailed : forall (F : realFieldType) (log : F -> F) (h : hord) (p l l' e : nat) A A'
  (B B' : 'M[F]_p) (g : 'M[F]_(l, p)) (g' : 'M[F]_(l', p)) (o o' : 'M[F]_(e, p)) (s : 'M[F]_(e, l)) (s' : 'M[F]_(e, l'))
  m m' sigmas n_obs,
  square p A -> nonneg A -> new_model h A B g o s = Ok m -> positive o -> (forall a b, 0 <= s a b) ->
  square p A' -> nonneg A' -> new_model h A' B' g' o' s' = Ok m' -> positive o' -> (forall a b, 0 <= s' a b) ->
  (forall i, entailed B g o s i = entailed B' g' o' s' i) -> score log m sigmas n_obs = score log m' sigmas n_obs.
Proof. exact score_entailed. Qed.
Print Assumptions C100_entailed.

(** C100: for every model over G there is a model over each I-Markov equivalent DAG D, with the same interventions on I,
    invariant outside of I, and with the same score on all data. *)
Theorem C100_equivalent : forall (F : realFieldType) (h : hord) (p l e : nat) (I : list nat) G D (B : 'M[F]_p)
  (g : 'M[F]_(l, p)) (o : 'M[F]_(e, p)) (s : 'M[F]_(e, l)) m,
  square p G -> nonneg G -> square p D -> nonneg D -> acyclic D -> imarkov_equiv I G D ->
  new_model h G B g o s = Ok m -> positive o -> (forall a b, 0 <= s a b) ->
  (forall j : 'I_p, ~ List.In (nat_of_ord j) I -> const_col o j) ->
  exists B' g' (o' : 'M[F]_(e, p)) m',
  [/\ new_model h D B' g' o' s = Ok m', positive o', forall j : 'I_p, ~ List.In (nat_of_ord j) I -> const_col o' j,
      forall (i : 'I_e) (j : 'I_p), List.In (nat_of_ord j) I -> o' i j = o i j &
      (forall i, entailed B' g' o' s i = entailed B g o s i) /\
      forall (log : F -> F) sigmas n_obs, score log m' sigmas n_obs = score log m sigmas n_obs].
Proof. exact equivalent_scores. Qed.
Print Assumptions C100_equivalent.

(** C100: so DAGs for which dag_to_icpdag returns the same graph reach the same scores. *)
Theorem C100_icpdag : forall (F : realFieldType) (h h' : hord) (p l e : nat) (I : list nat) G D (log : F -> F)
  (sigmas : 'I_e -> 'M[F]_p) n_obs (s : 'M[F]_(e, l)) x,
  square p G -> nonneg G -> acyclic G -> square p D -> nonneg D -> acyclic D ->
  dag_to_icpdag h G I = dag_to_icpdag h' D I -> (forall a b, 0 <= s a b) ->
  let reaches A := exists B g (o : 'M[F]_(e, p)) m,
    [/\ positive o, forall j : 'I_p, ~ List.In (nat_of_ord j) I -> const_col o j,
        new_model h A B g o s = Ok m & score log m sigmas n_obs = Ok x] in
  reaches G <-> reaches D.
Proof. exact icpdag_scores. Qed.
Print Assumptions C100_icpdag.

(** C102: the names of the variables (variable i is the old variable g i). *)
Theorem C102_variables : forall (F : realFieldType) (log : F -> F) (h h' : hord) (p l e : nat) f g (t : 'S_p) A
  (B : 'M[F]_p) (gamma : 'M[F]_(l, p)) (o : 'M[F]_(e, p)) (s : 'M[F]_(e, l)) m,
  renaming p f g -> (forall i : 'I_p, g (nat_of_ord i) = t i) ->
  square p A -> nonneg A -> new_model h A B gamma o s = Ok m -> positive o -> (forall a b, 0 <= s a b) ->
  exists2 m', new_model h' (rename p g A) (\matrix_(i, j) B (t i) (t j)) (col_perm t gamma) (col_perm t o) s = Ok m' &
    forall (sigmas : 'I_e -> 'M[F]_p) n_obs, score log m' (fun k => \matrix_(i, j) sigmas k (t i) (t j)) n_obs = score log m sigmas n_obs.
Proof. exact score_rename. Qed.
Print Assumptions C102_variables.

(** C102: the names, the signs and the units of the latents. *)
Theorem C102_latents : forall (F : realFieldType) (log : F -> F) (h h' : hord) (p l e : nat) (t : 'S_l) (c : 'I_l -> F) A
  (B : 'M[F]_p) (gamma : 'M[F]_(l, p)) (o : 'M[F]_(e, p)) (s : 'M[F]_(e, l)) m,
  (forall a, c a != 0) ->
  square p A -> nonneg A -> new_model h A B gamma o s = Ok m -> positive o -> (forall a b, 0 <= s a b) ->
  exists2 m', new_model h' A B (\matrix_(a, j) (c a * gamma (t a) j)) o (\matrix_(i, a) (s i (t a) / c a ^+ 2)) = Ok m' &
    forall sigmas n_obs, score log m' sigmas n_obs = score log m sigmas n_obs.
Proof. exact score_latents. Qed.
Print Assumptions C102_latents.
