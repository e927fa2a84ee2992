(** Concrete inputs that meet the hypotheses of the theorems of PropFull.v. *)
From Coq Require Import ZArith QArith_base Lia List Permutation.
From mathcomp Require Import all_ssreflect all_algebra.
From Verif Require Import Base GraphModel GraphSpec TopoProofs MeekProofs EnumProofs ListModel NumModel NumSpec LinAlgProofs NumProofs ScoreModel CacheSpec CacheProofs.
From Verif Require Import ScoreSpec GDProofs ScoreProofs HistProofs LoopProofs Lr0Proofs NoErrProofs RunProofs Run2Proofs.
From Verif Require Import CovModel MainModel MainSpec PruneProofs PruneIProofs SelectProofs FitProofs TotalProofs MainRunProofs SeedProofs ScreeProofs ClassProofs ExMainDefs PropMain ExMain.
From Verif Require Import FullModel FullSpec PropFull.
Set Implicit Arguments.
Unset Strict Implicit.
Unset Printing Implicit Defensive.
Import Order.Theory GRing.Theory Num.Theory.
Local Open Scope nat_scope.
Local Open Scope ring_scope.

Section Ex.
Variables (F : realFieldType) (log : F -> F) (pi : F) (h : hord).
Local Notation w := (ex_world log pi h).

(** GES returns 0 - 1 if all phases run, the empty graph otherwise *)
Definition none2 : mat := cons (cons Z0 (cons Z0 nil)) (cons (cons Z0 (cons Z0 nil)) nil).
Definition ex_ges_full (X : seq 'rV[F]_2) (ps : seq phase) (lambda : F) : mat := if ps is [:: _; _; _] then und2 else none2.
Lemma ex_pdags : ges_pdags ex_ges_full.
Proof.
move=> X ps lambda /=; rewrite /ex_ges_full.
have U : [/\ square 2 und2, binary und2, loopless und2 & (exists i j, und und2 i j) \/ acyclic und2] := ex_ges log pi h X lambda.
have N i j : ~ edge none2 i j by case: i => [|[|[|i]]]; case: j => [|[|[|j]]].
have V : [/\ square 2 none2, binary none2, loopless none2 & (exists i j, und none2 i j) \/ acyclic none2].
  split.
  - by split=> //; do 3 constructor.
  - by move=> [|[|[|i]]] [|[|[|j]]]; left.
  - by move=> [|[|[|i]]].
  - right=> v H; have : forall x y, Relation_Operators.clos_trans nat (edge none2) x y -> False by move=> x y; elim.
    by move/(_ _ _ H).
by case: ps => [|? [|? [|? [|? ?]]]].
Qed.

(** A call with store_history = 3 *)
Example C111_history_ex prune : exists am J sc H, fit_full w (ex_args F) ex_ges_full (seed_data F) (Some [:: A2]) prune None None (no_opts F) 42 (Zpos (xI xH)) = Ok (am, J, sc, Some H) /\
  hi_pruned H <> None /\ hi_cache H <> None /\
  fit_full w (ex_args F) ex_ges_full (seed_data F) (Some [:: A2]) prune None None (no_opts F) 42 Z0 = Ok (am, J, sc, None).
Proof.
have [ic [J [am E]]] := C56_ex log pi h prune 0.
have [[[am' J'] sc] E' _] := bindOk E.
have HG : forall X lambda, w_ges w X lambda = ex_ges_full X [:: Forward; Backward; Turning] lambda by [].
have := @C112_default F 2 1 w (ex_args F) ex_ges_full (seed_data F) (Some [:: A2]) prune None None 42 (Zpos (xI xH)) erefl HG.
rewrite E' => /esym /(@bindOk _ _ _ _ _) [[r hi] Ef [Er]]; move: Ef; rewrite {}Er => Ef.
have GI : forall training gs, initial w ex_ges_full training (Some [:: A2]) (no_opts F) = Ok gs -> Forall (graph 2) gs.
  by move=> tr gs [<-]; constructor; [exact: A2_graph | constructor].
have [H0 HH] := C111_history _ _ _ _ _ _ _ _ _ _ _ _ _ _ _ _ GI Ef.
case: hi Ef H0 HH => [H|] Ef H0 HH; last by case: H0 => /(_ erefl).
have [tr [sg [si [m [_ _ [H1 H2] _ _]]]]] := HH H erefl.
have [hi' Ef'] := C111_store _ _ _ _ _ _ _ _ _ _ _ _ _ _ Z0 _ _ Ef.
have [[_ H0'] _] := C111_history _ _ _ _ _ _ _ _ _ _ _ _ _ _ _ _ GI Ef'.
exists am', J', sc, H; split=> //; split; first exact/H1.
split; first exact/H2.
by rewrite -(H0' erefl).
Qed.
Example C111_error_ex prune store : fit_full w (ex_args F) ex_ges_full (seed_data F) (Some [::]) prune None None (no_opts F) 42 store = Err IndexError.
Proof.
apply: (@C111_store_error _ _ _ _ _ _ _ _ _ _ _ _ _ Z0).
by rewrite /fit_full (ex_split log pi h).
Qed.

(** Two penalisations, all phases: both orientations of 0 - 1; forward phase in the last of two samples: the empty graph *)
Definition two_tr : seq (seq 'rV[F]_2) := [:: cross 1; cross 2%:R].
Example C112_pooled_ex : exists gs, initial w ex_ges_full two_tr None (GesOpts None None (Some [:: 1; 3%:R])) = Ok gs /\ List.In A2 gs.
Proof.
have [gs [E H]] := C112_pooled F 2 1 w ex_ges_full two_tr (GesOpts None None (Some [:: 1; 3%:R])) ex_pdags ltac:(by []) erefl.
exists gs; split=> //; apply/H.
by exists 1; [left | exact: (A2_und2 log pi)].
Qed.
Example C112_env_ex : exists gs, initial w ex_ges_full two_tr None (GesOpts (Some (Zneg xH)) (Some [:: Forward]) None) = Ok gs /\
  ~ List.In A2 gs.
Proof.
have EL : element two_tr (Zneg xH) (cross 2%:R) by exists [:: cross 1], [::]; split=> //; right.
have [gs [E H]] := C112_env F 2 1 w ex_ges_full two_tr (GesOpts (Some (Zneg xH)) (Some [:: Forward]) None) _ _ ex_pdags erefl EL.
exists gs; split=> // /H [pen _ [_ [_ [H2 _]]]].
have : adjacent A2 0 1 by left.
by move/H2; case.
Qed.
Example C112_no_env_ex : initial w ex_ges_full two_tr None (GesOpts (Some (Zneg (xI xH))) None None) = Err IndexError.
Proof.
apply: (@C112_no_env _ _ _ _ _ _ _ (Zneg (xI xH))) => // X [us [vs [E H]]].
have := congr1 (@length _) E; rewrite app_length; case: H => /=; lia.
Qed.
Example C112_no_lambdas_ex prune tg ti store : fit_full w (ex_args F) ex_ges_full (seed_data F) None prune tg ti (GesOpts None None (Some [::])) 42 store = Err IndexError.
Proof. by apply: (C112_no_lambdas _ _ _ _ _ _ _ _ _ _ _ _ _ _ _ _ _ _ (ex_split log pi h)). Qed.
End Ex.
