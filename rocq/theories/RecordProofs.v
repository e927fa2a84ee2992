(** What a Score object still has after further calls (for C111). *)
From Coq Require Import ZArith Lia List.
From mathcomp Require Import all_ssreflect all_algebra.
From Verif Require Import Base GraphModel GraphSpec TopoProofs ListModel NumModel ScoreModel CacheSpec ScoreSpec HistProofs.
From Verif Require Import MainModel MainSpec FullModel FullSpec PruneProofs PruneIProofs LimitProofs.
Set Implicit Arguments.
Unset Strict Implicit.
Unset Printing Implicit Defensive.
Import Order.Theory GRing.Theory Num.Theory.
Local Open Scope nat_scope.
Local Open Scope ring_scope.

Section Record.
Variables (F : realFieldType) (p l e : nat) (cf : conf F p l e) (rnds : nat -> nat -> 'M[F]_p * 'M[F]_p).
Local Notation model := (model F p l e).
Local Notation sobj := (sobj F p l e).
Local Notation state := (option (cache model F)).

Definition later (st st' : state) : Prop := exists2 cs, Forall (@proper F p l e) cs & st' = run cf st cs.
Definition kept (st : state) I (m : model) : Prop := forall st', later st st' -> recorded cf st' I m.

Lemma later_refl st : later st st. Proof. by exists [::]. Qed.
Lemma later_trans s1 s2 s3 : later s1 s2 -> later s2 s3 -> later s1 s3.
Proof.
move=> [c1 P1 ->] [c2 P2 ->]; exists (c1 ++ c2); first by apply/Forall_app.
by rewrite /run foldl_cat.
Qed.
Lemma kept_later st st' I m : kept st I m -> later st st' -> kept st' I m.
Proof. by move=> K L s3 L3; apply: K; apply: later_trans L L3. Qed.
Lemma kept_recorded st I m : kept st I m -> recorded cf st I m.
Proof. by apply; apply: later_refl. Qed.

Lemma sdag_later (s s' : sobj) A I r : graph p A -> sdag cf rnds s A I = (s', r) -> later s.1 s'.1.
Proof.
move=> [SA NA] [<- _]; exists [:: Call A I None (rnds s.2)] => //.
by constructor=> //; split.
Qed.

Lemma sdag_kept (s s' : sobj) A I m x : reached cf s.1 -> graph p A -> sdag cf rnds s A I = (s', Ok (m, x)) -> kept s'.1 I m.
Proof.
move=> R GA E st' [cs' P' ->] J rnd SJ; have [_ EA _] := sdag_got R GA E.
have [SA NA] := GA; case: R E => cs [PC Es]; rewrite /sdag Es => -[<- E].
have PC' : Forall (@proper F p l e) cs by apply: Forall_impl PC => c [].
pose c : call F p l e := Call A I None (rnds s.2); pose c' : call F p l e := Call A J None rnd.
have [//|m' [Em SP]] := @repeatable F p l e cf cs c cs' c' m x PC' P' _ erefl SJ erefl E.
by exists m', x; rewrite EA.
Qed.

Lemma prune_loop_kept fuel I (s s' : sobj) dag (m : model) ms : reached cf s.1 -> graph p dag ->
  prune_loop cf rnds fuel I s dag m = (s', Ok ms) -> later s.1 s'.1 /\ forall m', List.In m' ms -> kept s'.1 I m'.
Proof.
elim: fuel s s' dag m ms => [|fuel IH] s s' dag m ms HS HG; rewrite ?prune_loop0 ?prune_loopS.
  by case: Z.ltb => // -[<- <-]; split=> //; apply: later_refl.
case: (msum_pos HG) => [HE|_ [<- <-]]; last by split=> //; apply: later_refl.
have [i [j [-> _]]] := weakest_edge_spec (mB m) (edge_p HG HE).
have HG' := upd0_graph HG (ltn_ord i) (ltn_ord j).
cbv beta iota zeta => /(@sbind_inv _ _ _ _ _ _ _) [s1 [[m1 x1] [E1 /(@sbind_inv _ _ _ _ _ _ _) [s2 [ms2 [E2 [<- <-]]]]]]].
have [R1 A1 G1] := sdag_got HS HG' E1; have [L2 H2] := IH _ _ _ _ _ R1 HG' E2.
split; first by apply: later_trans (sdag_later HG' E1) L2.
by move=> m' [<-|/H2 //]; apply: kept_later (sdag_kept HS HG' E1) L2.
Qed.

Lemma prune_graph_kept fuel prune I (s s' : sobj) G ms : reached cf s.1 -> graph p G ->
  prune_graph cf rnds fuel prune None I s G = (s', Ok ms) -> later s.1 s'.1 /\ forall m', List.In m' ms -> kept s'.1 I m'.
Proof.
move=> HS HG; rewrite /prune_graph => /(@sbind_inv _ _ _ _ _ _ _) [s1 [[m1 x1] [E1]]].
have [R1 A1 G1] := sdag_got HS HG E1; have K1 := sdag_kept HS HG E1; have L1 := sdag_later HG E1; case: prune => /=.
  move=> /(@sbind_inv _ _ _ _ _ _ _) [s2 [ms2 [E2 [<- <-]]]]; have [L2 H2] := prune_loop_kept R1 HG E2.
  split; first exact: later_trans L1 L2.
  by move=> m' [<-|/H2 //]; apply: kept_later K1 L2.
by move=> [<- <-]; split=> // m' [<-|[]].
Qed.

Lemma prune_each_kept fuel prune I (s s' : sobj) Gs ms : reached cf s.1 -> Forall (graph p) Gs ->
  prune_each cf rnds fuel prune None I s Gs = (s', Ok ms) -> later s.1 s'.1 /\ forall m', List.In m' ms -> kept s'.1 I m'.
Proof.
elim: Gs s s' ms => [|G Gs IH] s s' ms HS HG; first by move=> [<- <-]; split=> //; apply: later_refl.
rewrite prune_eachS => /(@sbind_inv _ _ _ _ _ _ _) [s1 [m1 [E1 /(@sbind_inv _ _ _ _ _ _ _) [s2 [ms2 [E2 [<- <-]]]]]]].
have [R1 _] := prune_graph_got HS (Forall_inv HG) E1; have [L1 K1] := prune_graph_kept HS (Forall_inv HG) E1.
have [L2 K2] := IH _ _ _ R1 (Forall_inv_tail HG) E2.
split; first exact: later_trans L1 L2.
by move=> m' /in_app_iff [/K1 K|/K2 //]; apply: kept_later K L2.
Qed.

Lemma prune_graphs_kept fuel prune (s s' : sobj) Gs ms : reached cf s.1 -> Forall (graph p) Gs ->
  prune_graphs cf rnds fuel prune None s Gs = (s', Ok ms) -> forall m', List.In m' ms -> kept s'.1 (List.seq 0 p) m'.
Proof.
case: Gs => [|G Gs] // HS HG; rewrite /prune_graphs; have -> : length G = p by have [[]] := Forall_inv HG.
by move=> E; have [_] := prune_each_kept HS HG E.
Qed.

Lemma prune_I_loop_kept (s s' : sobj) G I js rs : reached cf s.1 -> graph p G ->
  prune_I_loop cf rnds s G I js = (s', Ok rs) -> later s.1 s'.1 /\ forall m J, List.In (m, J) rs -> kept s'.1 J m.
Proof.
elim: js s s' I rs => [|j js IH] s s' I rs HS HG; first by move=> [<- <-]; split=> //; apply: later_refl.
rewrite prune_I_loopS; cbv zeta => /(@sbind_inv _ _ _ _ _ _ _) [s1 [[m1 x1] [E1 /(@sbind_inv _ _ _ _ _ _ _) [s2 [ms2 [E2 [<- <-]]]]]]].
have [R1 A1 G1] := sdag_got HS HG E1; have [L2 K2] := IH _ _ _ _ R1 HG E2.
split; first by apply: later_trans (sdag_later HG E1) L2.
by move=> m J [[<- <-]|/K2 //]; apply: kept_later (sdag_kept HS HG E1) L2.
Qed.

Lemma prune_I_kept argsort (s s' : sobj) G rs : reached cf s.1 -> graph p G ->
  prune_I cf rnds argsort None s G = (s', Ok rs) -> later s.1 s'.1 /\ forall m J, List.In (m, J) rs -> kept s'.1 J m.
Proof.
move=> HS HG; rewrite /prune_I.
cbv zeta => /(@sbind_inv _ _ _ _ _ _ _) [s1 [[m1 x1] [E1 /(@sbind_inv _ _ _ _ _ _ _) [s2 [rs2 [E2 [<- <-]]]]]]].
have [R1 A1 G1] := sdag_got HS HG E1; have [L2 K2] := prune_I_loop_kept R1 HG E2.
split; first by apply: later_trans (sdag_later HG E1) L2.
by move=> m J [[<- <-]|/K2 //]; apply: kept_later (sdag_kept HS HG E1) L2.
Qed.
End Record.
