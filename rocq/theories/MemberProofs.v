(** All DAGs of the returned class explain all data as well as the returned model (C142). *)
From Coq Require Import ZArith List Lia.
From mathcomp Require Import all_ssreflect all_algebra.
From Verif Require Import Base GraphModel GraphSpec TopoProofs EnumProofs NumModel NumSpec NumProofs ScoreModel ScoreSpec GradSpec MainModel MainSpec NestSpec MemberSpec.
From Verif Require Import MeekProofs EquivProofs IdentProofs ClassProofs FitProofs ClassProofs.
Set Implicit Arguments.
Unset Strict Implicit.
Unset Printing Implicit Defensive.
Import Order.Theory GRing.Theory Num.Theory.
Local Open Scope ring_scope.

Section Member.
Variables (F : realFieldType) (h : hord) (p l e : nat) (pm : option F) (pf : bool) (J : list nat).

(** A model within the constraints has a counterpart over every equivalent DAG. *)
Lemma counterpart G D (m : model F p l e) : square p G -> nonneg G -> square p D -> nonneg D -> acyclic G -> acyclic D ->
  imarkov_equiv J G D -> allowed pm pf G J m ->
  exists m' : model F p l e, [/\ allowed pm pf D J m', mpsis m' = mpsis m,
    forall (i : 'I_e) (j : 'I_p), List.In (nat_of_ord j) J -> momegas m' i j = momegas m i j,
    forall i, entailed (mB m') (mgamma m') (momegas m') (mpsis m') i = entailed (mB m) (mgamma m) (momegas m) (mpsis m) i
    & forall (log : F -> F) sigmas n_obs, score log m' sigmas n_obs = score log m sigmas n_obs].
Proof.
move=> SG NG SD ND AG AD E [EA SB EI [Ho Hs Hm] [Io Is]].
have N : new_model h G (mB m) (mgamma m) (momegas m) (mpsis m) = Ok m.
  case: (new_model_spec h (mB m) (mgamma m) (momegas m) (mpsis m) SG NG) => [[_ [_ ->]]|[[]]] //.
  by rewrite -EI -EA; case: (m).
have [B' [g' [o' [m' [N' Po Co Oo [En Sc]]]]]] := equivalent_scores SG NG SD ND AD E N Ho (fun a b => ltW (Hs a b)) Io.
case: (new_model_spec h B' g' o' (mpsis m) SD ND) => [[_ [SB' K]]|[]]; last by rewrite N'.
rewrite K in N'; case: N' => N'; exists m'; rewrite -N' /=; split=> //; by move=> log sg n; rewrite N' Sc.
Qed.

(** So the best scores of equivalent DAGs are the same. *)
Lemma counterpart_optimal log sigmas n_obs G D (m : model F p l e) : square p G -> nonneg G -> square p D -> nonneg D -> acyclic G -> acyclic D ->
  imarkov_equiv J G D -> optimal log pm pf sigmas n_obs G J m ->
  exists2 m' : model F p l e, optimal log pm pf sigmas n_obs D J m' & score log m' sigmas n_obs = score log m sigmas n_obs.
Proof.
move=> SG NG SD ND AG AD E [Al Op]; have [m' [Al' _ _ _ Sc]] := counterpart SG NG SD ND AG AD E Al.
exists m' => //; split=> // m1 x x1 Al1; rewrite Sc => Ex E1.
have E' := imarkov_sym E.
have [m2 [Al2 _ _ _ Sc2]] := counterpart SD ND SG NG AD AG E' Al1.
by apply: (Op m2 x x1 Al2) => //; rewrite Sc2.
Qed.
End Member.

Section Class.
Variables (F : realFieldType) (h : hord) (p l e : nat) (pm : option F) (pf : bool).
Lemma members_of P J (m : model F p l e) : square p (mA m) -> nonneg (mA m) -> acyclic (mA m) -> supported (mA m) (mB m) ->
  in_range pm m -> invariant_outside pf J m ->
  (forall D, square p D -> (consistent_ext D P <-> acyclic D /\ imarkov_equiv J (mA m) D)) -> explained_alike h pm pf P J m.
Proof.
move=> SA NA AA SB Rg Iv EQ.
case: (new_model_spec h (mB m) (mgamma m) (momegas m) (mpsis m) SA NA) => [[_ [_ E]]|[[]]] //.
set m0 := MkModel _ _ _ _ _ _ in E.
have Al : allowed pm pf (mA m) J m0 by split.
exists m0; split=> // D SD ND CE; have [AD IE] := (EQ D SD).1 CE; split.
  by have [m' [H1 H2 H3 H4 H5]] := counterpart h SA NA SD ND AA AD IE Al; exists m'.
by move=> log sg n Op; exact: (counterpart_optimal h SA NA SD ND AA AD IE Op).
Qed.
Lemma members_icpdag h' P J (m : model F p l e) : square p (mA m) -> nonneg (mA m) -> acyclic (mA m) -> supported (mA m) (mB m) ->
  in_range pm m -> invariant_outside pf J m -> dag_to_icpdag h' (mA m) J = Ok P -> explained_alike h pm pf P J m.
Proof.
move=> SA NA AA SB Rg Iv; have [M [-> [_ [_ [_ [_ EQ]]]]]] := dag_to_icpdag_spec h' p (mA m) J SA NA AA => -[<-].
exact: members_of.
Qed.
End Class.
Lemma members (F : realFieldType) (p e : nat) (w : world F p e) (a : args F) ic J (am : any_model F p e) training :
  fitted_for (train_conf w a training (projT1 am)) J (projT2 am) ->
  (forall D, square p D -> (consistent_ext D ic <-> acyclic D /\ imarkov_equiv J (mA (projT2 am)) D)) ->
  explained_alike (w_h w) (a_psi_max a) (a_psi_fixed a) ic J (projT2 am).
Proof. by move=> [[SA NA] AA SB Rg [Iv _]]; apply: members_of. Qed.
Lemma class_members (F : realFieldType) (p e : nat) (w : world F p e) (a : args F) candidates data prune seed ic J am :
  Forall (graph p) candidates -> equivalence_class w a candidates data prune seed = Ok (ic, J, am) ->
  explained_alike (w_h w) (a_psi_max a) (a_psi_fixed a) ic J (projT2 am).
Proof. by move=> Hc E; have [_ _ [tr Ft] [_ EQ]] := equivalence_class_spec Hc E; apply: members Ft EQ. Qed.
Lemma ges_members (F : realFieldType) (p e : nat) (w : world F p e) (a : args F) data seed ic J am :
  ges_pdag w -> equivalence_class_w_ges w a data seed = Ok (ic, J, am) ->
  explained_alike (w_h w) (a_psi_max a) (a_psi_fixed a) ic J (projT2 am).
Proof. by move=> Hw E; have [tr [_ [_ [_ [_ _ _ Ft [_ EQ]]]]]] := ges_class_spec Hw E; apply: members Ft EQ. Qed.
