(** Instances of the theorems of PropMember.v. *)
From Coq Require Import ZArith List Reals.
From mathcomp Require Import all_ssreflect all_algebra.
From Verif Require Import Base GraphModel GraphSpec TopoProofs NumModel NumSpec ScoreModel GradSpec ScoreSpec OptSpec MainModel MainSpec.
From Verif Require Import MeekProofs FitProofs MainRunProofs Run2Proofs SeedProofs LimitSpec LimitProofs LimitRunProofs RealProofs ExMainDefs ExMain ExLimit NestSpec ExNest MemberSpec PropMember.
Import Order.Theory GRing.Theory Num.Theory.
Local Open Scope ring_scope.

(** A run of equivalence_class *)
Example C142_class_ex (F : realFieldType) (log : F -> F) (pi : F) (h : hord) n : exists ic J am,
  equivalence_class (ex_world log pi h) (ex_args F) [:: A2] (seed_data F) true n = Ok (ic, J, am) /\
  explained_alike h None false ic J (projT2 am).
Proof.
have [ic [J [am E]]] := C56_ex log pi h true n; exists ic, J, am; split=> //.
by apply: (C142_class _ _ _ _ _ _ _ _ _ _ _ _ _ E); constructor; [exact: A2_graph | constructor].
Qed.

(** A model of 1 -> 0 with one latent variable, whose variance is 1 and 2 in the environments, and no targets: both DAGs are
    in the class. *)
Section Two.
Variables (F : realFieldType) (h : hord).
Definition still : model F 2 1 2 := let B : 'M[F]_2 := \matrix_(i, j) (if (i == 1) && (j == 0) then 3%:R else 0) in
  MkModel A10 B (const_mx 1) (\matrix_(i, j) (if j == 0 then 2%:R else 1)) (\matrix_(i, j) (if i == 0 then 1 else 2%:R)) (1%:M - B^T).
Definition both : mat := cons (cons Z0 (cons (Zpos xH) nil)) (cons (cons (Zpos xH) (cons Z0 nil)) nil).
Example C142_icpdag_ex : explained_alike h (Some 3%:R) false both nil still /\ consistent_ext A01 both /\ consistent_ext A10 both.
Proof.
have I10 : dag_to_icpdag ho_id A10 nil = Ok both by vm_compute.
have [S10 N10] : graph 2 A10 by have [] := dag01_graph A10_dag.
have C10 : acyclic A10 by have [] := dag01_graph A10_dag.
split.
  apply: (@C142_icpdag F h 2 1 2 (Some 3%:R) false ho_id) => //.
  - move=> i j; rewrite mxE; case: ifP; rewrite ?eqxx // => /andP [/eqP -> /eqP ->] _; exact/A10_edge.
  - split=> [i j|i j|u [<-] i j] /=; rewrite mxE; case: ifP => _; rewrite ?ltr0n ?ltr01 ?ltr1n ?ltr_nat //.
  - by split=> // j _ a b /=; rewrite !mxE.
have A01_ic : dag_to_icpdag ho_id A01 nil = Ok both by vm_compute.
have [S01 N01] : graph 2 A01 by have [] := dag01_graph A01_dag.
have C01 : acyclic A01 by have [] := dag01_graph A01_dag.
have [M [E [_ [_ [_ [H _]]]]]] := dag_to_icpdag_spec ho_id 2 A01 nil S01 N01 C01.
have [M' [E' [_ [_ [_ [H' _]]]]]] := dag_to_icpdag_spec ho_id 2 A10 nil S10 N10 C10.
by move: E E' H H'; rewrite A01_ic I10 => -[<-] [<-].
Qed.
End Two.
