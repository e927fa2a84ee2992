(** Candidates whose weights differ can change the result of equivalence_class (C133). *)
From Coq Require Import ZArith QArith Lia List.
From mathcomp Require Import all_ssreflect all_algebra.
From Verif Require Import Base GraphModel GraphSpec NumModel NumSpec ScoreModel MainModel MainSpec CovModel Run2Proofs MainRunProofs PruneProofs TotalProofs ClassProofs CandSpec CandProofs DupProofs.
From Verif Require Import WeightSpec WCandSpec ExactSpec WCandProofs.
Set Implicit Arguments.
Unset Strict Implicit.
Unset Printing Implicit Defensive.
Import Order.Theory GRing.Theory Num.Theory.
Local Open Scope ring_scope.

Definition twice (i j : nat) : Z := Zpos (xO xH).
Lemma twice_pos : positive_weights twice. Proof. by []. Qed.
Definition back22 : mat := weigh 2 twice back2.
Lemma back22_edges : same_edges 2 back22 back2. Proof. exact: (weigh_edges twice_pos back2_graph). Qed.
Lemma back22_graph : graph 2 back22. Proof. exact: (weigh_graph twice_pos back2_graph). Qed.
Lemma edge_back22 (i j : 'I_2) : edge back22 i j <-> i = 1 /\ j = 0.
Proof. by have [_ [_ [_ [_ E]]]] := back22_edges; rewrite E; exact: edge_back2. Qed.
Lemma back22_acyclic : acyclic back22.
Proof. by apply: (sub_acyclic _ back2_acyclic) => i j; have [_ [_ [_ [_ E]]]] := back22_edges; move=> /E. Qed.

Section WDup.
Variables (F : realFieldType) (log : F -> F) (pi : F) (h : hord).
Local Notation w := (dup_world log pi h).
Local Notation a := (dup_args F).

Lemma dup_sees : solver_sees_edges w.
Proof.
move=> l m m' [_ [_ E]] _ _ EO _ _; rewrite /= EO; congr Some; apply/matrixP => i j; rewrite !mxE.
have {}E := E i j; rewrite /edge in E; case: Z.eqb_spec => H; case: Z.eqb_spec => H' //; by case: E; tauto.
Qed.
Lemma mixed_weights seed : exists r, equivalence_class w a [:: A2; back2; back22] (@dup_data F) false seed = Ok r /\ mA (projT2 r.2) = A2.
Proof.
have C3 : Forall (fun G => graph 2 G /\ acyclic G) [:: A2; back2; back22].
  by constructor; [split; [exact: A2_graph|exact: A2_acyclic]|constructor; [split; [exact: back2_graph|exact: back2_acyclic]|constructor=> //; split; [exact: back22_graph|exact: back22_acyclic]]].
have [am [J [sc E]]] := @dup_runs F log pi h _ 42%N C3 ltac:(by []).
have [ic EC] := class_of seed C3 E; exists (ic, J, am); split=> //=.
have [ms [v [FM [m [HM HA HS]] HL]]] := dup_selected C3 E.
have [m1 [s1 [c1 [F1 D1 [X1 _] S1 _]]]] := dup_models log pi h A2_graph edge_A2 ltac:(by []) A2_acyclic.
have [m2 [s2 [c2 [F2 D2 [X2 _] S2 _]]]] := dup_models log pi h back2_graph edge_back2 ltac:(by []) back2_acyclic.
have [m3 [s3 [c3 [F3 D3 [X3 _] S3 _]]]] := dup_models log pi h back22_graph edge_back22 ltac:(by []) back22_acyclic.
move: FM; rewrite [lab _ _]/= => FM; inversion FM as [|x y l1 l2 R1 FM' Q1 Q2]; subst; inversion FM' as [|x' y' l3 l4 R2 FM2 Q1 Q2]; subst.
inversion FM2 as [|x9 y9 l9 l8 R3 FM3 Q1 Q2]; subst; inversion FM3; subst.
have {R1} Q1 := fresh_at F1 R1; have {R2} Q2 := fresh_at F2 R2; have {R3} Q3 := fresh_at F3 R3; subst.
have [z [Z1 Z2]] := HL m1 (or_introl erefl); rewrite (scored_fun Z1 S1) in Z2; have [LT _ _] := score_order log.
rewrite -HA; case: HM => [<-|[EM|[EM|//]]] //; move: Z2; rewrite -EM in HS.
  by rewrite (scored_fun HS S2) leNgt LT.
by rewrite (scored_fun HS S3) leNgt LT.
Qed.
End WDup.

Lemma mixed_refuted (F : realFieldType) (log : F -> F) (pi : F) (h : hord) :
  exists (w : world F 2 2) (a : args F) data G G' v,
  [/\ w_log w = log /\ w_pi w = pi, [/\ w_h w = h, solver_sees_edges w & exact_solver w a data], positive_weights v /\ G <> G', [/\ graph 2 G, graph 2 G', acyclic G & acyclic G']
    & forall seed, exists r r', [/\ equivalence_class w a [:: G; G'; G'] data false seed = Ok r,
        equivalence_class w a [:: G; G'; weigh 2 v G'] data false seed = Ok r', mA (projT2 r.2) = G' & mA (projT2 r'.2) = G]].
Proof.
exists (dup_world log pi h), (dup_args F), (@dup_data F), A2, back2, twice; split=> //.
- by split=> //; [exact: dup_sees|exact: dup_exact].
- by split; [exact: A2_graph|exact: back2_graph|exact: A2_acyclic|exact: back2_acyclic].
move=> seed; have [r0 [r [_ E _ H]]] := dup_refuted log pi h seed; have [r' [E' H']] := mixed_weights log pi h seed.
by exists r, r'.
Qed.
