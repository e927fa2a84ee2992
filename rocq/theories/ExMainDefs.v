(** The runs used in the examples of main.py: a convex solver that answers with the weights 1, 2, ... on the edges. *)
From Coq Require Import ZArith QArith_base Lia List Permutation.
From mathcomp Require Import all_ssreflect all_algebra.
From Verif Require Import Base GraphModel GraphSpec TopoProofs MeekProofs EnumProofs ListModel NumModel NumSpec LinAlgProofs NumProofs ScoreModel CacheSpec CacheProofs.
From Verif Require Import ScoreSpec GDProofs ScoreProofs HistProofs LoopProofs Lr0Proofs NoErrProofs RunProofs Run2Proofs.
From Verif Require Import MainModel MainSpec PruneProofs PruneIProofs SelectProofs FitProofs TotalProofs MainRunProofs SeedProofs ScreeProofs ClassProofs.
Set Implicit Arguments.
Unset Strict Implicit.
Unset Printing Implicit Defensive.
Import Order.Theory GRing.Theory Num.Theory.
Local Open Scope nat_scope.
Local Open Scope ring_scope.

Definition edge_weights (F : realFieldType) p (A : mat) : 'M[F]_p :=
  \matrix_(i, j) (if Z.eqb (get A i j) Z0 then 0 else (i + 1)%N%:R).

Section Weights.
Variables (F : realFieldType) (p l e : nat) (cf : conf F p l e).
Hypothesis lp : (l <= p)%N.
Hypothesis p0 : (0 < p)%N.
Hypothesis e0 : (0 < e)%N.
Hypothesis PS : forall k, posdef (cf_sigmas cf k).
Hypothesis N0 : forall k, (0 < cf_n_obs cf k)%N.
Hypothesis LR : cf_learning_rate cf = 0.
Hypothesis FU : (0 < cf_fuel cf)%N.
Hypothesis MI : cf_max_iter cf = 1%N.
Hypothesis MF : (0 < cf_max_fluctuations cf)%N.
Hypothesis SO : cf_solver cf = Cvx.
Hypothesis PM : cf_psi_max cf = None.
Hypothesis CV : forall m, cf_cvx cf m = Some (edge_weights F p (mA m)).

Lemma weights_supported A : supported A (edge_weights F p A).
Proof. by move=> i j; rewrite mxE /edge; case: Z.eqb_spec; rewrite ?eqxx. Qed.

Lemma weights_fit A I rnd : graph p A -> acyclic A -> exists m s, fit cf A I None rnd = Ok (m, s) /\ mB m = edge_weights F p A.
Proof.
move=> [SA NA] AA; have CA m : mA m = A -> cf_cvx cf m = Some (edge_weights F p A) by move=> <-.
have [pm [s [_ _ E]]] := @fit_const F p l e cf A SA NA AA p0 e0 lp PS N0 LR FU MI MF SO _ (@weights_supported A) CA PM I rnd.
by eexists; eexists; split; first exact: E.
Qed.

Lemma weights_some : some_weight cf.
Proof.
move=> A I rnd m s GA E [i [j Eij]].
have [SA NA] := GA; have AA : acyclic A.
  case: (is_dag_spec (cf_h cf) p A SA NA) => d [_ Hd]; case: d Hd => Hd; first by apply/Hd.
  by move: E; rewrite fit_notdag // => /Hd.
have [m' [s' [E' EB]]] := weights_fit I rnd GA AA; move: E; rewrite E' => -[<- _]; rewrite EB.
have Hi : (i < p)%N /\ (j < p)%N.
  case: (boolP ((i < p)%N && (j < p)%N)) => [/andP //|H]; case: Eij; apply: (@get_out p) => //.
  by move=> [/ssrnat.ltP Hi /ssrnat.ltP Hj]; rewrite Hi Hj in H.
move=> /matrixP /(_ (Ordinal Hi.1) (Ordinal Hi.2)) /eqP; rewrite !mxE /=.
by case: Z.eqb_spec Eij => // _ _; rewrite pnatr_eq0 addn1.
Qed.

Lemma weights_ok rnds Gs x : Forall acyclic Gs -> ~ failed cf rnds Gs x.
Proof.
move=> HA [A [I [k [GA [G HG SG] E]]]].
have AA : acyclic A by apply: (sub_acyclic SG); move/Forall_forall: HA => /(_ _ HG).
by have [m [s [E' _]]] := weights_fit I (rnds k) GA AA; rewrite E' in E.
Qed.
End Weights.

Lemma perm_Permutation (T : eqType) (s t : seq T) : perm_eq s t -> Permutation.Permutation s t.
Proof.
elim: s t => [|x s IH] t P.
  by move: P; rewrite perm_sym => /perm_nilP ->.
have XT : x \in t by rewrite -(perm_mem P) mem_head.
case: (path.splitPr XT) P => t1 t2 P.
apply: Permutation_cons_app; apply: IH.
by rewrite -(perm_cons x); apply: (perm_trans P); rewrite -cat1s perm_catCA cat1s.
Qed.

Lemma argsort_sorts (F : realFieldType) : sorts (@np_argsort F).
Proof.
move=> xs; rewrite /np_argsort; set r := fun i j => _; set n := size xs.
have P : perm_eq (sort r (iota 0 n)) (iota 0 n) by rewrite perm_sort.
have T : total r by move=> i j; apply: le_total.
have S : sorted r (sort r (iota 0 n)) by apply: sort_sorted.
split; first exact: perm_Permutation.
move=> a b /andP [ab bn]; have R : transitive r by move=> y x z; apply: le_trans.
apply: (sorted_ltn_nth R 0%N S) => //; rewrite inE size_sort size_iota //; exact: ltn_trans bn.
Qed.
