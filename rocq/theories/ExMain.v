(** Concrete inputs that meet the hypotheses of the theorems of PropMain.v. *)
From Coq Require Import ZArith QArith_base Lia List Permutation.
From mathcomp Require Import all_ssreflect all_algebra.
From Verif Require Import Base GraphModel GraphSpec TopoProofs MeekProofs EnumProofs ListModel NumModel NumSpec LinAlgProofs NumProofs ScoreModel CacheSpec CacheProofs.
From Verif Require Import ScoreSpec GDProofs ScoreProofs HistProofs LoopProofs Lr0Proofs NoErrProofs RunProofs Run2Proofs.
From Verif Require Import CovModel MainModel MainSpec PruneProofs PruneIProofs SelectProofs FitProofs TotalProofs MainRunProofs SeedProofs ScreeProofs ClassProofs ExMainDefs PropMain.
Set Implicit Arguments.
Unset Strict Implicit.
Unset Printing Implicit Defensive.
Import Order.Theory GRing.Theory Num.Theory.
Local Open Scope nat_scope.
Local Open Scope ring_scope.

Section Ex.
Variables (F : realFieldType) (log : F -> F) (pi : F) (h : hord).

(** Three variables, the graph 0 -> 1 -> 2 *)
Definition conf4 : conf F 3 0 1 :=
  Conf log h id (fun m => Some (edge_weights F 3 (mA m))) (fun=> (0, 0)) id (fun=> true) (fun=> 1%:M) (fun=> 1%N) None false 1 0 0 1 0 0 Cvx 9.
Definition chain3 : mat := chain_graph 3.
Lemma chain3_graph : graph 3 chain3.
Proof. by split; [split=> //; do 4 constructor | move=> [|[|[|[|i]]]] [|[|[|[|j]]]] //=; lia]. Qed.
Lemma chain3_edge i j : edge chain3 i j <-> (i, j) = (0, 1)%N \/ (i, j) = (1, 2)%N.
Proof.
split; last by move=> [] [-> ->].
by case: i => [|[|[|[|i]]]]; case: j => [|[|[|[|j]]]] H; first [by left | by right | by case: H].
Qed.
Lemma chain3_acyclic : acyclic chain3.
Proof.
have P : forall i j, Relation_Operators.clos_trans nat (edge chain3) i j -> (i < j)%N.
  by move=> i j; elim=> [x y /chain3_edge [] [-> ->]|x y z _ H _ H'] //; apply: ltn_trans H'.
by move=> i /P; rewrite ltnn.
Qed.
Lemma conf4_some : some_weight conf4. Proof. by apply: weights_some => // k; exact: posdef1. Qed.
Lemma conf4_ok rnds x : ~ failed conf4 rnds [:: chain3] x.
Proof. by apply: weights_ok => //; [move=> k; exact: posdef1 | constructor; [exact: chain3_acyclic | constructor]]. Qed.

Lemma chain3_count n : edge_count chain3 n -> n = 2%N.
Proof.
move=> [l [ND [IN <-]]]; rewrite -[2%N]/(length [:: (0, 1); (1, 2)]%N).
apply: Permutation_length; apply: NoDup_Permutation => //.
  by constructor; [move=> [] | constructor=> //; constructor].
by move=> [i j]; rewrite IN chain3_edge; split=> /= [[]->|[<-|[<-|[]]]]; tauto.
Qed.

(** C52, C53 *)
Example C52_ex rnds : exists m0 m1 m2,
  (prune_graphs conf4 rnds 9 true None (new_sobj F 3 0 1) [:: chain3]).2 = Ok [:: m0; m1; m2] /\
  mA m0 = chain3 /\ pruned [:: m0; m1; m2].
Proof.
have H1 : Forall (graph 3) [:: chain3] by constructor; [exact: chain3_graph | constructor].
have R : reached conf4 (new_sobj F 3 0 1).1 := reached0 _.
have [[mss [E FA]]|[x [_ /conf4_ok]] //] := C52_chain rnds conf4_some R H1 ltac:(by []) (leqnn 9).
have {FA} [ms [E1 [m [ms' [E2 EA PR /chain3_count EC]]]]] : exists ms, mss = [:: ms] /\ exists m ms', [/\ ms = m :: ms', mA m = chain3, pruned ms & edge_count chain3 (size ms')].
  by inversion FA as [|? ms ? mss' H F2]; inversion F2; exists ms.
rewrite {}E1 {}E2 in E PR; case: ms' EC PR E => [|m1 [|m2 []]] // _ PR E; exists m, m1, m2; split=> //.
Qed.

(** C54 *)
Example C54_ex rnds : exists rs, (prune_I conf4 rnds (@np_argsort F) None (new_sobj F 3 0 1) chain3).2 = Ok rs /\ size rs = 4%N.
Proof.
have R : reached conf4 (new_sobj F 3 0 1).1 := reached0 _.
have [[rs [m0 [o [f [E S _ _ _]]]]]|[x [_ /conf4_ok]] //] := C54_chain rnds R chain3_graph (@argsort_sorts F).
by exists rs.
Qed.
Example C54_threshold_ex rnds t : exists m J, (prune_I conf4 rnds (@np_argsort F) (Some t) (new_sobj F 3 0 1) chain3).2 = Ok [:: (m, J)].
Proof.
have R : reached conf4 (new_sobj F 3 0 1).1 := reached0 _.
have [[m [J [m0 [mx [E _ _ _ _]]]]]|[x [_ /conf4_ok]] //] := C54_threshold rnds (@np_argsort F) t R chain3_graph erefl.
by exists m, J.
Qed.

(** C55 *)
Example C55_ex : best_scoring [:: (3%:R, 1); (2%:R, 2); (5%:R, 3); (2%:R, 4)]%N = Ok (2%:R : rat, 2%N).
Proof. by []. Qed.

(** C55, C56, C76, C77, C79: two variables, one environment; GES returns 0 - 1 *)
Definition und2 : mat := cons (cons Z0 (cons (Zpos xH) nil)) (cons (cons (Zpos xH) (cons Z0 nil)) nil).
Definition ex_world : world F 2 1 :=
  World log pi h id (fun l m => Some (edge_weights F 2 (mA m))) (fun=> (0, 0)) id (fun=> true) (@np_argsort F) (@np_cov F 2)
    (fun _ _ => und2) (fun seed k xs => xs) (fun _ _ _ => (0, 0)) 4.
Definition ex_args : args F := Args (Some [:: 0%N]) [:: third; third; third] None false 1 0 0 1 0 0 Cvx.
Local Notation tr := [:: cross (1 : F)].
Local Notation cf := (train_conf ex_world ex_args tr 0).

Lemma ex_posdef (k : 'I_1) : posdef (covs ex_world tr k).
Proof. by apply: (@cov1_posdef F log pi h _ (cval 1) (cov_cross 1) (cval_gt0 (oner_neq0 F))). Qed.
Lemma ex_nobs (k : 'I_1) : (1 < n_obs tr k)%N.
Proof. by rewrite /n_obs (ord1 k). Qed.
Lemma ex_some : some_weight cf.
Proof. by apply: weights_some => //; [exact: ex_posdef | move=> k; apply: ltnW; exact: ex_nobs]. Qed.
Lemma ex_split : split_data (w_shuffle ex_world 42) [seq seed_data F k | k <- enum 'I_1] (a_folds ex_args) =
  Ok [:: tr; [:: cross 2%:R]; [:: cross 3%:R]].
Proof. by rewrite data1. Qed.
Lemma ex_prunable prune : prunable ex_world ex_args prune tr 0.
Proof. by split; [exact: ex_some | ]. Qed.

Lemma ex_prunables prune k : List.In k [:: 0%N] -> prunable ex_world ex_args prune tr k.
Proof. by move=> [<-|//]; exact: ex_prunable. Qed.

Lemma ex_ok n Gs x : Forall acyclic Gs -> ~ failed cf (w_rnds ex_world n) Gs x.
Proof. by apply: weights_ok => //; [exact: ex_posdef | move=> k; apply: ltnW; exact: ex_nobs]. Qed.

Example C56_ex prune n : exists ic J am, equivalence_class ex_world ex_args [:: A2] (seed_data F) prune n = Ok (ic, J, am).
Proof.
have G1 : Forall (graph 2) [:: A2] by constructor; [exact: A2_graph | constructor].
have G2 : Forall acyclic [:: A2] by constructor; [exact: A2_acyclic | constructor].
have := C55_no_comparison_error ex_split (or_introl erefl) erefl G1 ltac:(by []) ltac:(by []) erefl (@ex_prunables prune).
move=> [[[[am J] sc] E]|[k [m [x [[<-|//] _]]]]]; last by move/ex_ok => /(_ G2).
have [||t1 [t2 [t3 [gs [hs [k [v [_ _ _ _ [[[SA NA] AC _ _ _] _ _]]]]]]]]] := C55_selection _ _ E => //; first by move=> gs [<-].
have [M [EM _]] := dag_to_icpdag_spec h 2 _ J SA NA AC.
by exists M, J, am; rewrite /equivalence_class E /= EM.
Qed.

Lemma ex_ges : ges_pdag ex_world.
Proof.
move=> X lambda; split.
- by split=> //; do 3 constructor.
- by move=> [|[|[|i]]] [|[|[|j]]]; first [by left | by right].
- by move=> [|[|[|i]]].
- by left; exists 0%N, 1%N.
Qed.

Lemma und2_edge i j : edge und2 i j <-> (i, j) = (0, 1)%N \/ (i, j) = (1, 0)%N.
Proof.
split; last by move=> [] [-> ->].
by case: i => [|[|[|i]]]; case: j => [|[|[|j]]] H; first [by left | by right | by case: H].
Qed.
Lemma A2_01 i j : edge A2 i j <-> (i, j) = (0, 1)%N.
Proof. by split=> [/A2_edge [-> ->]|[-> ->]]. Qed.
Lemma A2_und2 : dag01 2 A2 /\ consistent_ext A2 und2.
Proof.
split.
  by split; [exact: A2_sq | split; [move=> [|[|[|i]]] [|[|[|j]]]; first [by left | by right] | exact: A2_acyclic]].
split; first exact: A2_acyclic.
have P (x y : nat) u v : (x, y) = (u, v) <-> x = u /\ y = v by split=> [[-> ->]|[-> ->]].
split; first by move=> i j; rewrite /adjacent !und2_edge !A2_01 !P; tauto.
split; last by move=> i j [/und2_edge H1 H2]; case: H2; apply/und2_edge; case: H1 => [] [-> ->]; [right | left].
move=> i c j; rewrite /vstruct /dir /adjacent !und2_edge !A2_01 !P; split; first by tauto.
by move=> [[[-> ->] _] [[[-> _] _] [//]]].
Qed.

Example C76_ex n : exists r, equivalence_class_w_ges ex_world ex_args (seed_data F) n = Ok r.
Proof.
have [gs [Eg Hg]] := fit_ges_spec tr ex_ges.
have G1 : Forall (graph 2) gs by apply/Forall_forall => D /Hg [[SD [BD _]] _]; split=> //; apply: binary_nonneg.
have G2 : Forall acyclic gs by apply/Forall_forall => D /Hg [[_ [_ AD]] _].
have NE : gs <> [::].
  move=> E; have : List.In A2 gs; last by rewrite E.
  by apply/Hg; exact: A2_und2.
have := C55_no_comparison_error ex_split (or_intror (conj erefl Eg)) erefl G1 NE ltac:(by []) erefl (@ex_prunables true).
move=> [[[[am J] sc] E]|[k [m [x [[<-|//] _]]]]]; last by move/ex_ok => /(_ G2).
have [||t1 [t2 [t3 [gs' [hs [k [v [_ _ _ _ [[[SA NA] AC _ _ _] _ _]]]]]]]]] := C55_selection _ _ E => //.
  move=> t gs' _ E'; have [gs2 [E2 H2]] := fit_ges_spec t ex_ges; move: E2; rewrite E' => -[->].
  by apply/Forall_forall => D /H2 [[SD [BD _]] _]; split=> //; apply: binary_nonneg.
have [M [EM _]] := dag_to_icpdag_spec h 2 _ J SA NA AC.
by rewrite /equivalence_class_w_ges E /= EM; eexists.
Qed.

Lemma und2_graph : graph 2 und2.
Proof. by have [SP BP _ _] := ex_ges [::] 0; split=> //; apply: binary_nonneg. Qed.
Lemma und2_cyclic : ~ acyclic und2.
Proof. by move/(_ 0%N); apply; apply: (Relation_Operators.t_trans _ _ _ 1%N); apply: Relation_Operators.t_step. Qed.
Example C77_ex prune n :
  equivalence_class ex_world ex_args [:: und2; A2] (seed_data F) prune n = Err ValueError /\
  equivalence_class ex_world ex_args [::] (seed_data F) prune n = Err IndexError.
Proof.
split; first exact: (C77_first_cyclic _ _ _ und2_graph und2_cyclic ex_split erefl).
exact: (C77_no_candidates _ _ ex_split erefl erefl).
Qed.

Example C79_ex prune n :
  (exists r, equivalence_class ex_world ex_args [:: A2] (seed_data F) prune n = Ok r) \/
  (exists x, equivalence_class ex_world ex_args [:: A2] (seed_data F) prune n = Err x /\
     (x = OutOfFuel \/ a_solver ex_args = Cvx /\ (x = TypeError \/ x = AssertionError))).
Proof.
apply: (C79_no_exception _ ex_split erefl) => //.
- by move=> k Hk; split; [case: Hk => [<-|] | exact: ex_prunables].
- by constructor; [exact: A2_graph | constructor].
- by constructor; [exact: A2_acyclic | constructor].
- by move=> k; split; [exact: ex_posdef | exact: ex_nobs].
Qed.
End Ex.

(** C69, C78: two large singular values and two small ones, with any increasing function for the logarithm *)
Definition ex_svds : seq rat := [:: 9%:R; 8%:R; 1; 0].
Lemma ex_pooled : [seq pooled ex_svds k | k <- [:: 1; 2; 3]%N] = [:: 19%:R; 2%:R^-1; 19%:R].
Proof. by rewrite /= /pooled /scatter /avg /ex_svds /= !big_cons !big_nil; apply/eqP; vm_compute. Qed.
Example C69_ex : scree_selection id 3%:R ex_svds = Ok 2%N /\ increasing_log (@id rat) /\
  forall k, (0 < k < size ex_svds)%N -> 0 < pooled ex_svds k.
Proof.
have [P1 P2 P3] := ex_pooled.
have H : forall k, (0 < k < size ex_svds)%N -> 0 < pooled ex_svds k.
  by case=> [|[|[|[|k]]]] // _; rewrite ?P1 ?P2 ?P3.
have IL : increasing_log (@id rat) by move=> x y _.
split=> //; have [k [-> Hk H1 _]] := @scree_pooled _ id 3%:R ex_svds IL erefl H.
by case: k Hk H1 => [|[|[|[|k]]]] // _ /(_ 2%N erefl); rewrite ?P1 ?P3 P2.
Qed.
Example C78_ex : gaussian_ll id (1%:R : rat) [:: 1; 2%:R] 0 1 <> log_likelihood id 1%:R [:: 1; 2%:R] 0 1.
Proof. by move/gaussian_ll_wrong => []. Qed.
Example C75_ex (F : realFieldType) (log : F -> F) (h : hord) rnd :
  exists m s, fit (conf4 log h) chain3 [:: 0; 2]%N None rnd = Ok (m, s) /\ mscore (conf4 log h) m = Ok s.
Proof.
have [m [s [E _]]] := @weights_fit F 3 0 1 (conf4 log h) erefl erefl erefl (fun=> posdef1 F 3) (fun=> erefl) erefl erefl erefl erefl erefl erefl (fun=> erefl) chain3 [:: 0; 2]%N rnd chain3_graph chain3_acyclic.
have [S N] := chain3_graph; exists m, s; split=> //; apply: (C75_score_partial S N _ E) => //.
Qed.

