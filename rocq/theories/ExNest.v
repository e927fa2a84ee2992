(** Concrete inputs that meet the hypotheses of the theorems of PropNest.v. *)
From Coq Require Import ZArith List Reals.
From mathcomp Require Import all_ssreflect all_algebra.
From Verif Require Import Base GraphModel GraphSpec EdgeProofs ListModel NumModel NumSpec ScoreModel GradSpec ScoreSpec OptSpec MainModel MainSpec HistProofs SeedProofs FitProofs PruneProofs PruneIProofs.
From Verif Require Import LimitSpec LimitProofs LimitRunProofs RealProofs ExMainDefs ExLimit NestSpec NestProofs NestRunProofs PropNest.
Import Order.Theory GRing.Theory Num.Theory.
Local Open Scope ring_scope.

(** A model of 1 -> 0 with variances 1 and 2 in its environments and no latents, and one with two latents *)
Section Small.
Variable F : realFieldType.
Definition small : model F 2 0 2 := let B : 'M[F]_2 := \matrix_(i, j) (if (i == 1) && (j == 0) then 3%:R else 0) in
  MkModel A10 B 0 (\matrix_(i, j) (if (i == 1) && (j == 0) then 2%:R else 1)) 0 (1%:M - B^T).
Lemma small_allowed : allowed (Some 2%:R) true A10 [:: 0%N] small.
Proof.
split=> //.
- move=> i j; rewrite mxE; case: ifP; rewrite ?eqxx // => /andP [/eqP -> /eqP ->] _; exact/A10_edge.
- by split=> [i j|i []|u _ i []] //=; rewrite mxE; case: ifP; rewrite ?ltr0n ?ltr01.
split=> [j N a b /=|_ []] //; rewrite !mxE.
have -> : j == 0 = false by apply/negbTE; apply: contra_notN N => /eqP ->; left.
by rewrite !andbF.
Qed.
Example C138_nested_ex (log : F -> F) : exists m' : model F 2 2 2,
  [/\ allowed (Some 2%:R) true A10 [:: 0%N; 1%N] m', mB m' = mB small, forall i, mnoise m' i = mnoise small i
    & forall sigmas n_obs, score log m' sigmas n_obs = score log small sigmas n_obs].
Proof.
apply: (@C138_nested F log 2 2 (Some 2%:R) true 0 2 A10 A10 [:: 0%N] [:: 0%N; 1%N] small) => //.
- by move=> j [<-|[]]; left.
- by move=> u [<-]; rewrite ltr0n.
exact: small_allowed.
Qed.
End Small.

(** The reals with their logarithm; X1 = X0 + noise in one environment *)
Section Real.
Variable h : hord.
Local Notation cf := (train_conf (lim_w h) (lim_args R_realFieldType) [:: linked R_realFieldType] 0).
Lemma ex_optimal : optimal_fits cf. Proof. exact: lim_optimal ln_log_like. Qed.
Lemma ex_psi u : cf_psi_max cf = Some u -> 0 < u. Proof. by []. Qed.
Lemma A01_count : edge_count A01 1.
Proof.
exists [:: (0, 1)%N]; split; first by constructor; [case | constructor].
split=> // i j; split=> [[[<- <-]|[]]|/A01_edge [-> ->]]; [exact/A01_edge | by left].
Qed.
Lemma A01_graph : graph 2 A01. Proof. by have [] := dag01_graph A01_dag. Qed.
(** 0 -> 1 scores at least as well as the empty graph *)
Example C138_pruning_ex rnds : exists ms, (prune_graphs cf rnds 4 true None (new_sobj _ 2 0 1) [:: A01]).2 = Ok ms /\ size ms = 2%N /\ rising cf ms.
Proof.
have R : reached cf (new_sobj R_realFieldType 2 0 1).1 := reached0 _.
have HG : Forall (graph 2) [:: A01] by constructor; [exact: A01_graph | constructor].
have W : some_weight cf by exact: lim_some.
have [[mss [E _]]|[x [_ [A [I [k [GA [G [<-|[]] SA] EF]]]]]]] := prune_graphs_chain rnds W R HG ltac:(by []) (isT : (2 * 2 <= 4)%N); last first.
  have AA : acyclic A by apply: (acyclic_sub _ _ SA); exact: (proj2 (dag01_graph A01_dag)).
  by have [g [s [y E]]] := lim_fit (ln : R_realFieldType -> R_realFieldType) 0 h I (rnds k) GA AA; move: EF; rewrite E.
have [mss' [E' H]] := C138_pruning ex_psi ex_optimal W R HG ltac:(by []) (isT : (2 * 2 <= 4)%N) E.
exists (concat mss); split=> //; rewrite E' => {E E'}.
inversion H as [|G c Gs cs [RI [m [c' [E1 E2 EC]]]] H' EG EM]; inversion H'; subst; rewrite /= app_nil_r.
by split=> //=; rewrite (edge_count_fun _ _ _ EC A01_count).
Qed.
Example C138_targets_ex rnds : exists rs, (prune_I cf rnds (@np_argsort _) None (new_sobj _ 2 0 1) A01).2 = Ok rs /\ size rs = 3%N /\
  rising cf [seq r.1 | r <- rs].
Proof.
have R : reached cf (new_sobj R_realFieldType 2 0 1).1 := reached0 _.
have [[rs [m0 [o [f [E _ _ _ _]]]]]|[x [_ [A [I [k [GA [G [<-|[]] SA] EF]]]]]]] := prune_I_chain rnds R A01_graph (@argsort_sorts _); last first.
  have AA : acyclic A by apply: (acyclic_sub _ _ SA); exact: (proj2 (dag01_graph A01_dag)).
  by have [g [s [y E]]] := lim_fit (ln : R_realFieldType -> R_realFieldType) 0 h I (rnds k) GA AA; move: EF; rewrite E.
have [S RI] := C138_targets ex_psi ex_optimal R A01_graph (@argsort_sorts _) E.
by exists rs.
Qed.
End Real.
