(** The two entry points: candidates, GES, exceptions (C76, C77, C79). *)
From Coq Require Import ZArith QArith_base Lia List Permutation.
From mathcomp Require Import all_ssreflect all_algebra.
From Verif Require Import Base GraphModel GraphSpec MeekProofs EnumProofs ListModel NumModel NumSpec ScoreModel CacheSpec ScoreSpec.
From Verif Require Import NumProofs ScoreProofs HistProofs NoErrProofs MainModel MainSpec ListProofs PruneProofs PruneIProofs SelectProofs FitProofs TotalProofs.
Set Implicit Arguments.
Unset Strict Implicit.
Unset Printing Implicit Defensive.
Import Order.Theory GRing.Theory Num.Theory.
Local Open Scope nat_scope.
Local Open Scope ring_scope.

Lemma sub_acyclic A B : subgraph A B -> acyclic B -> acyclic A.
Proof.
move=> S AB i H; apply: (AB i).
have T x y : Relation_Operators.clos_trans nat (edge A) x y -> Relation_Operators.clos_trans nat (edge B) x y.
  elim=> {x y} [x y /S E|x y z _ H1 _ H2]; first by constructor.
  exact: (Relation_Operators.t_trans _ _ _ y).
exact: T.
Qed.

Section Class.
Variables (F : realFieldType) (p e : nat) (w : world F p e) (a : args F).
Local Notation sample := (seq 'rV[F]_p).

(** ** Candidates that are not acyclic *)
Section Each.
Variables (l : nat) (cf : conf F p l e) (rnds : nat -> nat -> 'M[F]_p * 'M[F]_p).
Lemma prune_each_acyclic fuel prune I (s : sobj F p l e) Gs ms : reached cf s.1 -> Forall (graph p) Gs ->
  (prune_each cf rnds fuel prune None I s Gs).2 = Ok ms -> Forall acyclic Gs.
Proof.
elim: Gs s ms => [|G Gs IH] s ms HS HG; first by constructor.
have GG := Forall_inv HG.
rewrite prune_eachS.
have HA : forall s' r', prune_graph cf rnds fuel prune None I s G = (s', Ok r') -> acyclic G /\ reached cf s'.1.
  move=> s' r' E; have [R _] := @prune_each_sub F p l e cf rnds fuel prune I s [:: G] HS (Forall_cons _ GG (Forall_nil _)).
  move: R; rewrite prune_eachS E sbindOk /= => R; split=> //.
  move: E; rewrite /prune_graph; case: (sdag_spec rnds I HS GG).
  by case: sdag => s1 [[m x]|x]; rewrite ?sbindOk ?sbindErr //= => _ [<- [_ ? _ _ _] _].
case E: prune_graph => [s' [r'|x]]; rewrite ?sbindOk ?sbindErr //.
have [A1 R] := HA _ _ E; case E2: prune_each => [s2 [ms2|x]]; rewrite ?sbindOk ?sbindErr //= => _.
by constructor=> //; apply: (IH s' ms2 R (Forall_inv_tail HG)); rewrite E2.
Qed.
End Each.

Lemma prune_graphs_acyclic l (cf : conf F p l e) rnds fuel prune (s : sobj F p l e) Gs ms : reached cf s.1 ->
  Forall (graph p) Gs -> (prune_graphs cf rnds fuel prune None s Gs).2 = Ok ms -> Gs <> [::] /\ Forall acyclic Gs.
Proof.
case: Gs => [//|G Gs] HS HG; rewrite /prune_graphs => E; split=> //.
exact: prune_each_acyclic HS HG E.
Qed.

(** C77 *)
Lemma class_acyclic candidates data prune seed r : Forall (graph p) candidates ->
  equivalence_class w a candidates data prune seed = Ok r -> candidates <> [::] /\ Forall acyclic candidates.
Proof.
move=> HC; rewrite /equivalence_class => /(@bindOk _ _ _ _ _) [[[am J] sc] Ef _].
have [||tr [tg [ti [gs [hs [k [v [Es [[[<-]|[//]] _] [_ [ms [E _]] _] _ _]]]]]]]] := fit_all_spec _ _ Ef; [by move=> gs [<-] | by [] |].
have HS : reached (train_conf w a tr (projT1 am)) (new_sobj F p (projT1 am) e).1 := reached0 _.
exact: prune_graphs_acyclic HS HC E.
Qed.

Lemma class_cyclic G candidates data prune seed training test_graph test_I h hs : graph p G -> ~ acyclic G ->
  split_data (w_shuffle w 42) [seq data k | k <- enum 'I_e] (a_folds a) = Ok [:: training; test_graph; test_I] ->
  numbers w a training = Ok (h :: hs) ->
  equivalence_class w a (G :: candidates) data prune seed = Err ValueError.
Proof.
move=> GG NG Es Eh; rewrite /equivalence_class /fit_all Es /= Eh /= /fit_h; case: too_small => //.
rewrite /prune_graphs prune_eachS /prune_graph.
have HS : reached (train_conf w a training h) (new_sobj F p h e).1 := reached0 _.
have [_] := @reached_call F p h e (train_conf w a training h) (fun _ _ _ => True) (fun _ _ _ _ _ _ => Logic.I) (fun _ _ _ _ _ _ => Logic.I) (fun _ _ _ _ _ _ _ => Logic.I) _ G (iota 0 (length G)) (w_rnds w 0 0) HS GG.
rewrite /sdag -[(new_sobj F p h e).2]/0%N; case: score_dag => s' [[m x]|x]; rewrite ?sbindOk ?sbindErr /snd; first by case=> -[].
by have [SG NN] := GG; rewrite fit_notdag // => -[->].
Qed.

Lemma class_none data prune seed training test_graph test_I h hs :
  split_data (w_shuffle w 42) [seq data k | k <- enum 'I_e] (a_folds a) = Ok [:: training; test_graph; test_I] ->
  numbers w a training = Ok (h :: hs) -> too_small training = false ->
  equivalence_class w a [::] data prune seed = Err IndexError.
Proof. by move=> Es Eh TS; rewrite /equivalence_class /fit_all Es /= Eh /= /fit_h TS. Qed.

(** C57 *)
Lemma seed_42 candidates data prune n icpdag J am : equivalence_class w a candidates data prune n = Ok (icpdag, J, am) ->
  (forall n', equivalence_class w a candidates data prune n' = Ok (icpdag, J, am)) /\
  exists sc, fit_all w a data (Some candidates) prune None None 42 = Ok (am, J, sc).
Proof.
move=> E; split=> //; move: E; rewrite /equivalence_class.
by move=> /(@bindOk _ _ _ _ _) [[[am' J'] sc] -> /(@bindOk _ _ _ _ _) [ic _ [_ <- <-]]]; exists sc.
Qed.

(** C76 *)
Lemma fit_ges_spec tr : ges_pdag w -> exists gs, fit_ges w tr = Ok gs /\
  forall D, List.In D gs <-> dag01 p D /\ consistent_ext D (w_ges w (flatten tr) (w_log w (size (flatten tr))%:R)).
Proof.
move=> HP; rewrite /fit_ges; rewrite divff ?pnatr_eq0 // mul1r.
have [SP BP LP OP] := HP (flatten tr) (w_log w (size (flatten tr))%:R).
by have [gs [-> [_ H]]] := all_dags_exact p _ SP BP LP (w_h w) OP; exists gs.
Qed.

Lemma ges_class_spec data seed icpdag J am : ges_pdag w ->
  equivalence_class_w_ges w a data seed = Ok (icpdag, J, am) ->
  exists training test_graph test_I G,
  [/\ split_data (w_shuffle w 42) [seq data k | k <- enum 'I_e] (a_folds a) = Ok [:: training; test_graph; test_I],
      dag01 p G /\ consistent_ext G (w_ges w (flatten training) (w_log w (size (flatten training))%:R)),
      subgraph (mA (projT2 am)) G /\ List.incl J (List.seq 0 p),
      fitted_for (train_conf w a training (projT1 am)) J (projT2 am)
    & (square p icpdag /\ binary icpdag) /\
      forall D, square p D -> (consistent_ext D icpdag <-> acyclic D /\ imarkov_equiv J (mA (projT2 am)) D)].
Proof.
move=> HP; rewrite /equivalence_class_w_ges => /(@bindOk _ _ _ _ _) [[[am' J'] sc] Ef /(@bindOk _ _ _ _ _) [ic Ei [<- <- <-]]].
have GD tr gs : fit_ges w tr = Ok gs -> Forall (graph p) gs.
  move=> E; have [gs' [E' H]] := fit_ges_spec tr HP; move: E'; rewrite E => -[Egs]; rewrite -Egs in H.
  by apply/Forall_forall => D /H [[SD [BD _]] _]; split=> //; apply: binary_nonneg.
have [||tr [tg [ti [gs [hs [k [v [Es [[//|[_ Eg]] _] _ [G HG SG] [HF HJ _]]]]]]]]] := fit_all_spec _ _ Ef => //.
  by move=> tr gs _; apply: GD.
exists tr, tg, ti, G; split=> //.
  by have [gs' [E' H]] := fit_ges_spec tr HP; move: E'; rewrite Eg => -[E']; apply/H; rewrite -E'.
have [[SA NA] AC _ _ _] := HF.
have [M [EM [SM [BM [_ [_ H]]]]]] := dag_to_icpdag_spec (w_h w) p _ J' SA NA AC.
by move: EM; rewrite Ei => -[->].
Qed.

(** C79 *)
Lemma split_size (T : Type) (shuffle : nat -> seq T -> seq T) (data : seq (seq T)) ratios f fs :
  split_data shuffle data ratios = Ok (f :: fs) -> size f = length data.
Proof.
rewrite /split_data; case: (negb _) => //; cbv zeta; set y := fold_left _ _ _; case: y => // f0 fs0.
by case: Nat.eqb_spec => // E [<- _].
Qed.
Lemma failed_stuck l (cf : conf F p l e) rnds Gs x : Forall (graph p) Gs -> Forall acyclic Gs ->
  (0 < p)%N -> (0 < e)%N -> (forall k, posdef (cf_sigmas cf k)) -> (forall k, (0 < cf_n_obs cf k)%N) ->
  (l <= p)%N -> (forall u, cf_psi_max cf = Some u -> 1 < u) -> (0 < cf_max_iter cf)%N -> (0 < cf_max_fluctuations cf)%N ->
  (cf_solver cf = Grad -> forall n k, nontrivial (rnds n k).1) -> failed cf rnds Gs x -> stuck cf x.
Proof.
move=> GG GA p0 e0 PS N0 lp U MI MF HR [A [I [k [[SA NA] [G HG SG] EF]]]].
have AA : acyclic A by apply: (sub_acyclic SG); move/Forall_forall: GA => /(_ _ HG).
have := @fit_no_error F p l e cf A SA NA AA p0 e0 PS N0 I (rnds k) lp U MI MF (fun S k' => HR S k k').
by rewrite EF => -[[]//|[y [[->]]]].
Qed.

Lemma class_total data candidates prune seed training test_graph test_I hs :
  split_data (w_shuffle w 42) [seq data k | k <- enum 'I_e] (a_folds a) = Ok [:: training; test_graph; test_I] ->
  numbers w a training = Ok hs -> hs <> [::] -> (forall h, List.In h hs -> (h <= p)%N /\ prunable w a prune training h) ->
  candidates <> [::] -> Forall (graph p) candidates -> Forall acyclic candidates ->
  (0 < p)%N -> (0 < e)%N ->
  (forall k, posdef (covs w training k) /\ (1 < n_obs training k)%N) ->
  (forall u, a_psi_max a = Some u -> 1 < u) -> (0 < a_max_iter a)%N -> (0 < a_max_fluctuations a)%N ->
  (a_solver a = Grad -> forall h n k, nontrivial (w_rnds w h n k).1) ->
  (exists r, equivalence_class w a candidates data prune seed = Ok r) \/
  (exists x, equivalence_class w a candidates data prune seed = Err x /\
     (x = OutOfFuel \/ a_solver a = Cvx /\ (x = TypeError \/ x = AssertionError))).
Proof.
move=> Es Eh NH HH NC GC AC p0 e0 PS U MI MF HR.
have TS : too_small training = false.
  have SZ : size training = e by have := split_size Es; rewrite -[length (map _ _)]/(size _) size_map size_enum_ord.
  apply/negP => /hasP [X /(nthP [::]) [i Hi <-] /eqP E]; rewrite SZ in Hi.
  by have [_] := PS (Ordinal Hi); rewrite /n_obs E.
rewrite /equivalence_class.
case: (fit_all_total Es (or_introl erefl) Eh GC NC NH TS (fun h Hh => (HH h Hh).2)) => [[[[am J] sc] E]|[h [n [x [Hh E H]]]]].
  left; rewrite E /=; have [||tr [tg [ti [gs [hs' [k [v [_ _ _ _ [[[SA NA] AA _ _ _] _ _]]]]]]]]] := fit_all_spec _ _ E => //.
    by move=> gs [<-].
  by have [M [-> _]] := dag_to_icpdag_spec (w_h w) p _ J SA NA AA; eexists.
right; exists x; split; first by rewrite E.
have H1 k : posdef (covs w training k) by have [] := PS k.
have H2 (k : 'I_e) : (0 < n_obs training k)%N by have [_ /ltnW] := PS k.
exact: (@failed_stuck h (train_conf w a training h) (w_rnds w n) candidates x GC AC p0 e0 H1 H2 (HH h Hh).1 U MI MF (fun S => HR S n) H).
Qed.
End Class.
