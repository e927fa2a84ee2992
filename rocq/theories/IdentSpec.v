(** Vocabulary of PropIdent.v. *)
From Coq Require Import ZArith List.
From mathcomp Require Import all_ssreflect all_algebra.
From Verif Require Import Base GraphModel NumModel NumSpec GradSpec.
Set Implicit Arguments.
Unset Strict Implicit.
Unset Printing Implicit Defensive.
Import Order.Theory GRing.Theory Num.Theory.
Local Open Scope ring_scope.

Section Spec.
Variables (F : realFieldType) (h : hord) (p l e : nat) (I : list nat).

(** S are the covariances of a model over A with l latent variables and interventions on I. *)
Definition entails A (S : 'I_e -> 'M[F]_p) : Prop :=
  exists (B : 'M[F]_p) (g : 'M[F]_(l, p)) (o : 'M[F]_(e, p)) (s : 'M[F]_(e, l)) m,
  [/\ new_model h A B g o s = Ok m, positive o, forall j : 'I_p, ~ List.In (nat_of_ord j) I -> const_col o j &
      (forall a b, 0 <= s a b) /\ forall i, entailed B g o s i = S i].

(** x is the score of such a model. *)
Definition reaches (log : F -> F) (sigmas : 'I_e -> 'M[F]_p) (n_obs : 'I_e -> nat) A x : Prop :=
  exists (B : 'M[F]_p) (g : 'M[F]_(l, p)) (o : 'M[F]_(e, p)) (s : 'M[F]_(e, l)) m,
  [/\ new_model h A B g o s = Ok m, positive o, forall j : 'I_p, ~ List.In (nat_of_ord j) I -> const_col o j &
      (forall a b, 0 <= s a b) /\ score log m sigmas n_obs = Ok x].
End Spec.
