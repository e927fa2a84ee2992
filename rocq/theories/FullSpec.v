(** Vocabulary of PropFull.v. *)
From Coq Require Import ZArith List.
From mathcomp Require Import all_ssreflect all_algebra.
From Verif Require Import Base GraphModel GraphSpec NumModel ScoreModel CacheSpec ScoreSpec MainModel MainSpec FullModel.
Set Implicit Arguments.
Unset Strict Implicit.
Unset Printing Implicit Defensive.
Import Order.Theory GRing.Theory Num.Theory.
Local Open Scope ring_scope.

(** The options equivalence_class_w_ges leaves at None *)
Definition no_opts (F : realFieldType) : ges_opts F := GesOpts None None None.

(** X is the element k of the list; -1 is the last one *)
Definition element (T : Type) (xs : list T) (k : Z) (X : T) : Prop :=
  exists us vs, xs = us ++ X :: vs /\ (k = Z.of_nat (length us) \/ k = Z.opp (Z.of_nat (length (X :: vs)))).

Section Spec.
Variables (F : realFieldType) (p : nat) (ges : seq 'rV[F]_p -> seq phase -> F -> mat).

(** GES returns a p x p 0/1 partially directed graph without loops that has an undirected edge or is acyclic. *)
Definition ges_pdags : Prop := forall X phases lambda, let P := ges X phases lambda in
  [/\ square p P, binary P, loopless P & (exists i j, und P i j) \/ acyclic P].

(** D is a DAG of the class GES finds in the rows X, with one of the penalisations *)
Definition ges_dag (log : F -> F) (X : seq 'rV[F]_p) (phases : list phase) (lambdas : list F) (D : mat) : Prop :=
  exists2 pen, List.In pen lambdas &
    dag01 p D /\ consistent_ext D (ges X phases (pen / 2%:R * log (size X)%:R)).
End Spec.

(** The Score object in state st has the parameters of m for the graph of m and the targets I: it returns them, whatever the
    random draws, and is left as it is. *)
Definition recorded (F : realFieldType) (p l e : nat) (cf : conf F p l e) (st : option (cache (model F p l e) F)) (I : list nat)
  (m : model F p l e) : Prop :=
  forall J rnd, same_set J I -> exists m' s, score_dag cf st (mA m) J None rnd = (st, Ok (m', s)) /\ same_params m m'.
