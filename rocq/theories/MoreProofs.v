(** More candidates, more numbers of latents and pruning do not worsen the validation score (C145). *)
From Coq Require Import ZArith Lia List Permutation.
From mathcomp Require Import all_ssreflect all_algebra.
From Verif Require Import Base GraphModel GraphSpec ListModel NumModel NumSpec NumProofs ScoreModel CacheSpec CacheProofs ScoreSpec ScoreProofs HistProofs.
From Verif Require Import MainModel MainSpec PruneProofs PruneIProofs SelectProofs FitProofs ClassProofs CandSpec CandProofs MoreSpec.
Set Implicit Arguments.
Unset Strict Implicit.
Unset Printing Implicit Defensive.
Import Order.Theory GRing.Theory Num.Theory.
Local Open Scope nat_scope.
Local Open Scope ring_scope.

Section Object.
Variables (F : realFieldType) (p l e : nat) (cf : conf F p l e).
Hypothesis ND : no_draws cf.
Local Notation full := (iota 0 p).

Lemma visits_cat fuel prune Gs Gs' L : visits cf fuel prune (Gs ++ Gs') = Ok L ->
  exists L1 L2, visits cf fuel prune Gs = Ok L1 /\ L = L1 ++ L2.
Proof.
elim: Gs L => [|G Gs IH] L /=; first by move=> _; exists [::], L.
case: visit => //= L0; case E : visits => [L3|] //= [<-]; have [L1 [L2 [-> ->]]] := IH _ E.
by exists (L0 ++ L1), L2; rewrite catA.
Qed.
Lemma visits_prune fuel prune prune' Gs L L' : (prune = true -> prune' = true) -> visits cf fuel prune Gs = Ok L -> visits cf fuel prune' Gs = Ok L' ->
  exists R, Permutation L' (L ++ R).
Proof.
have same Q : visits cf fuel Q Gs = Ok L -> visits cf fuel Q Gs = Ok L' -> exists R, Permutation L' (L ++ R).
  by move=> -> [->]; exists [::]; rewrite cats0.
case: prune; case: prune' => PP; try exact: same; first by have := PP erefl.
elim: Gs L L' {same} => [|G Gs IH] L L' /=; first by move=> [<-] [<-]; exists [::].
rewrite /visit; case: (D cf G full) => //= r; case E : (visits cf fuel false Gs) => [L1|] //= [<-].
case: chain => //= L2; case E' : visits => [L3|] //= [<-]; have [R PR] := IH _ _ E E'.
exists (L2 ++ R); constructor; rewrite catA; apply: (@Permutation_trans _ _ (L2 ++ (L1 ++ R))); first exact: Permutation_app_head.
by rewrite catA; apply: Permutation_app_tail; exact: Permutation_app_comm.
Qed.
Lemma visits_more fuel prune prune' Gs Gs' extra L L' : (prune = true -> prune' = true) -> Permutation Gs' (Gs ++ extra) ->
  visits cf fuel prune Gs = Ok L -> visits cf fuel prune' Gs' = Ok L' -> exists R, Permutation L' (L ++ R).
Proof.
move=> PP P E E'; have [L2 E2 P2] := visits_perm P E'; have [L3 [L4 [E3 E4]]] := visits_cat E2.
have [R PR] := visits_prune PP E E3; exists (R ++ L4); apply: Permutation_trans P2 _; rewrite E4 catA; exact: Permutation_app_tail.
Qed.

Lemma models_of rnds fuel prune Gs ms : Forall (graph p) Gs ->
  (prune_graphs cf rnds fuel prune None (new_sobj F p l e) Gs).2 = Ok ms ->
  exists L, [/\ visits cf fuel prune Gs = Ok L, Forall2 (model_at cf) (lab [::] L) ms & Forall (graph p) L].
Proof.
case: Gs => [|G Gs] GG //; rewrite /prune_graphs (square_length (proj1 (Forall_inv GG))).
have := prune_each_outcome ND rnds fuel prune (s := new_sobj F p l e) (xs := [::]) erefl (memo0 _) GG.
case EL : (visits _ _ _ _) => [L|x]; last by move=> [x' ->].
by move=> [s1 [ms1 [xs1 [-> E1 M1 F1 G1]]]] /= [<-]; exists L.
Qed.
Lemma Forall2_inl (X Y : Type) (R : X -> Y -> Prop) xs ys x : Forall2 R xs ys -> In x xs -> exists2 y, In y ys & R x y.
Proof. by elim=> // a b us vs H _ IH [<-|/IH [y Hy Ry]]; [exists b => //; left | exists y => //; right]. Qed.
Lemma Forall2_inr (X Y : Type) (R : X -> Y -> Prop) xs ys y : Forall2 R xs ys -> In y ys -> exists2 x, In x xs & R x y.
Proof. by elim=> // a b us vs H _ IH [<-|/IH [x Hx Rx]]; [exists a => //; left | exists x => //; right]. Qed.

Lemma more_models rnds rnds' fuel prune prune' Gs Gs' extra ms ms' m : (prune = true -> prune' = true) -> Permutation Gs' (Gs ++ extra) -> Forall (graph p) Gs' ->
  (prune_graphs cf rnds fuel prune None (new_sobj F p l e) Gs).2 = Ok ms ->
  (prune_graphs cf rnds' fuel prune' None (new_sobj F p l e) Gs').2 = Ok ms' -> In m ms -> In m ms'.
Proof.
move=> PP P GG' E E' Im.
have GG : Forall (graph p) Gs by have := Permutation_Forall P GG'; move/Forall_app => [].
have [L [EL FL GL]] := models_of GG E; have [L' [EL' FL' GL']] := models_of GG' E'.
have [R PR] := visits_more PP P EL EL'; have [x Hx Mx] := Forall2_inr FL Im.
have PL : Permutation (lab [::] L') (lab [::] (L ++ R)) by apply: (@lab_perm p _ _ _ PR); apply: (Forall_impl _ _ GL') => A [].
have Hx' : In x (lab [::] L') by apply: (Permutation_in _ (Permutation_sym PL)); rewrite lab_cat; apply/in_app_iff; left.
by have [m' Im' Mx'] := Forall2_inl FL' Hx'; rewrite (model_at_fun Mx Mx').
Qed.
End Object.

Section Class.
Variables (F : realFieldType) (p e : nat) (w : world F p e) (a : args F).
Lemma validation_more training test prune prune' Gs Gs' extra n n' h v v' G G' : no_draws (train_conf w a training h) ->
  (prune = true -> prune' = true) -> Permutation Gs' (Gs ++ extra) -> Forall (graph p) Gs' ->
  validation w a training test prune Gs n h v G -> validation w a training test prune' Gs' n' h v' G' -> v' <= v.
Proof.
move=> ND PP P GG' [ms [E [[m [Im _ Sm]] _]]] [ms' [E' [_ H]]].
have [y [Sy Ly]] := H _ (more_models ND PP P GG' E E' Im).
by move: Sy; rewrite /scored Sm => -[->].
Qed.
Lemma last_at_exists (hs : list nat) h : In h hs -> exists k, last_at hs k h.
Proof.
elim: hs => // x hs IH; case: (in_dec PeanoNat.Nat.eq_dec h hs) => [H _|N].
  have [k [Hk Lk]] := IH H; exists k.+1; split=> // -[|k'] //= L; exact: Lk.
move=> [->|//]; exists 0%N; split=> // -[|k'] //= _ Q; apply: N; exact: nth_error_In Q.
Qed.

Lemma class_more candidates candidates' extra data prune prune' seed seed' ic J am ic' J' am' training test_graph test_I hs hs' :
  split_data (w_shuffle w 42) [seq data k | k <- enum 'I_e] (a_folds a) = Ok [:: training; test_graph; test_I] ->
  numbers w a training = Ok hs -> incl hs hs' -> (forall h, In h hs -> no_draws (train_conf w a training h)) ->
  Permutation candidates' (candidates ++ extra) -> Forall (graph p) candidates' -> (prune = true -> prune' = true) ->
  equivalence_class w a candidates data prune seed = Ok (ic, J, am) ->
  equivalence_class w (with_numbers a hs') candidates' data prune' seed' = Ok (ic', J', am') ->
  exists v v', [/\ validated w a training test_graph prune candidates hs am v,
    validated w (with_numbers a hs') training test_graph prune' candidates' hs' am' v' & v' <= v].
Proof.
move=> Es Eh HI ND P GG' PP.
have GG : Forall (graph p) candidates by have := Permutation_Forall P GG'; move/Forall_app => [].
rewrite /equivalence_class => /(@bindOk _ _ _ _ _) [[[am1 J1] sc] Ef /(@bindOk _ _ _ _ _) [ic1 _ [_ _ E3]]].
move=> /(@bindOk _ _ _ _ _) [[[am2 J2] sc2] Ef' /(@bindOk _ _ _ _ _) [ic2 _ [_ _ E3']]]; rewrite {}E3 in Ef; rewrite {}E3' in Ef'.
have [|//|tr [tg [ti [gs [hs1 [k [v [Es1 [Eg Eh1] [Lk Va _] _ _]]]]]]]] := fit_all_spec _ _ Ef; first by move=> gs [<-].
have [|//|tr' [tg' [ti' [gs' [hs1' [k' [v' [Es1' [Eg' Eh1'] [Lk' Va' Mi'] _ _]]]]]]]] := fit_all_spec _ _ Ef'; first by move=> gs' [<-].
move: Es1; rewrite Es => -[E1 E2 _]; rewrite -E1 -E2 in Eh1 Va *; move: Es1'; rewrite [a_folds (with_numbers _ _)]/(a_folds a) Es => -[E1' E2' _].
rewrite -E1' -E2' in Eh1' Va' Mi' *; move: Eh1; rewrite Eh => -[E4]; rewrite -E4 in Lk; move: Eh1' => -[E4']; rewrite -E4' in Lk' Mi'.
have {}Eg : gs = candidates by case: Eg => [[->]|[]].
have {}Eg' : gs' = candidates' by case: Eg' => [[->]|[]].
rewrite {}Eg in Va; rewrite {}Eg' in Va' Mi'.
exists v, v'; split; [by exists k | by exists k' |].
have Ih : In (projT1 am) hs := nth_error_In _ _ (proj1 Lk).
have [k2 L2] := last_at_exists (HI _ Ih); have [v2 [G2 [V2 Le]]] := Mi' _ _ L2.
have L3 : v2 <= v := validation_more (ND _ Ih) PP P GG' Va V2.
by apply: le_trans L3; case: Le => [/ltW|[-> _]].
Qed.
End Class.
