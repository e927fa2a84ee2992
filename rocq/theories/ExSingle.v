(** Instances of the theorems of PropSingle.v. *)
From Coq Require Import ZArith List.
From mathcomp Require Import all_ssreflect all_algebra.
From Verif Require Import Base GraphModel GraphSpec NumModel ScoreModel ScoreSpec CovModel MainModel MainSpec OptSpec TopoProofs MeekProofs EnumProofs FitProofs ClassProofs MainRunProofs TotalProofs LimitProofs LimitRunProofs ExMainDefs SingleSpec SingleProofs.
Set Implicit Arguments.
Unset Strict Implicit.
Unset Printing Implicit Defensive.
Import Order.Theory GRing.Theory Num.Theory.
Local Open Scope ring_scope.

Section Ex.
Variables (F : realFieldType) (log : F -> F) (pi : F) (h : hord).
Hypothesis L : log_like log.
Local Notation w := (lim_world log pi h).

(** X1 = X0 + noise: the candidates are X0 -> X1 and X1 -> X0, and fit equally well.  The first is returned as the only DAG,
    with both variables as targets. *)
Example ex_C140_class : exists ic am, [/\ sorts (w_argsort w) /\ a_solver (lim_args F) = Cvx, Forall (graph 2) [:: A01; A10] /\ some_training w (lim_args F) (@linked3 F),
    equivalence_class w (lim_args F) [:: A01; A10] (@linked3 F) true 0 = Ok (ic, [:: 0; 1]%N, am) /\ edge ic 0 1 & ~ edge ic 1 0].
Proof.
have [am [E _]] := lim_result pi h L true 0; exists A01, am; split=> //.
- by split=> //; exact: argsort_sorts.
- split; first by apply: Forall_impl cands_dag => A /dag01_graph [].
  by move=> tr tg ti; rewrite (lim_split log pi h) => -[<- _ _] k; exact: lim_nobs.
Qed.

(** C140, C139: the same with psi_fixed = True. *)
Example ex_C139_class : exists am,
  equivalence_class w (args_psi_fixed (lim_args F) true) [:: A01; A10] (@linked3 F) true 0 = Ok (A01, [:: 0; 1]%N, am).
Proof. by have [am [E _]] := lim_result pi h L true 0; exists am; rewrite class_psi_fixed. Qed.

(** C140: score_dag fits X0 -> X1 in the same way for all sets of targets. *)
Example ex_C140_targets : exists m x, forall I, (do_call (train_conf w (lim_args F) [:: linked F] 0) None (Call A01 I None (fun=> (0, 0)))).2 = Ok (m, x).
Proof.
have [SA [BA AC]] := A01_dag; have [g [s [x E]]] := lim_fit log pi h [::] (fun=> (0, 0)) (conj SA (@binary_nonneg _ BA)) AC.
eexists; eexists => I; rewrite (call_targets _ _ I [::]); last exact: lim_nobs.
by rewrite /do_call /score_dag E.
Qed.

(** C140: ges returns X1 -> X0. *)
Example ex_C140_ges : exists ic J am, [/\ ges_pdag w, some_training w (lim_args F) (@linked3 F) & equivalence_class_w_ges w (lim_args F) (@linked3 F) 0 = Ok (ic, J, am)].
Proof.
have HP : ges_pdag w.
  by move=> X lambda; have [S [B A]] := A10_dag; split=> //; [move=> i E; apply: (A i); apply: Relation_Operators.t_step | right].
have [gs [EG HG]] := fit_ges_spec [:: linked F] HP.
have G1 : Forall (graph 2) gs by apply/Forall_forall => D /HG [[SD [BD _]] _]; split=> //; exact: binary_nonneg.
have C10 : consistent_ext A10 A10 by have [S [B A]] := A10_dag; split=> //; split=> [//|]; split=> [//|i j []].
have NG : gs <> [::] by move=> E0; have : List.In A10 gs by [apply/HG; split=> //; exact: A10_dag]; rewrite E0.
have P k : List.In k [:: 0%N] -> prunable w (lim_args F) true [:: linked F] k by move=> [<-|//] _; split; first exact: lim_some.
have := @fit_all_total F 2 1 w (lim_args F) (@linked3 F) None true 42 [:: linked F] [:: linked F] [:: linked F] gs [:: 0%N] (lim_split log pi h)
  (or_intror (conj erefl EG)) erefl G1 NG ltac:(by []) erefl P.
move=> [[[[am J] sc] E]|[k [m [x [[<-|//] _ [A [I [r [GA [G HIG SG] EF]]]]]]]]]; last first.
  have AA : acyclic A by apply: (sub_acyclic SG); have [[_ [_ ]]] := proj1 (HG _) HIG.
  by have [g [s [y EF']]] := lim_fit log pi h I (w_rnds w m r) GA AA; rewrite EF' in EF.
have G2 tr gs' : @None (seq mat) = None -> fit_ges w tr = Ok gs' -> Forall (graph 2) gs'.
  move=> _ E2; have [gs2 [E' H]] := fit_ges_spec tr HP; move: E'; rewrite E2 => -[Egs]; rewrite -Egs in H.
  by apply/Forall_forall => D /H [[SD [BD _]] _]; split=> //; apply: binary_nonneg.
have [//|t1 [t2 [t3 [gs' [hs [k [v [_ _ _ _ [[[SA NA] AC _ _ _] _ _]]]]]]]]] := fit_all_spec _ G2 E.
have [M [EM _]] := dag_to_icpdag_spec h 2 _ J SA NA AC.
exists M, J, am; split=> //; last by rewrite /equivalence_class_w_ges E /= EM.
by move=> tr tg ti; rewrite (lim_split log pi h) => -[<- _ _] k'; exact: lim_nobs.
Qed.
End Ex.
