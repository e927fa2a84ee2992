(** The real numbers of the standard library as a field of mathcomp, and their logarithm. *)
From Coq Require Import Reals Lra ClassicalEpsilon FunctionalExtensionality.
From mathcomp Require Import all_ssreflect all_algebra.
From Verif Require Import OptSpec.
Set Implicit Arguments.
Unset Strict Implicit.
Unset Printing Implicit Defensive.
Import Order.Theory GRing.Theory Num.Theory.

Definition Reqb (x y : R) : bool := if Req_EM_T x y then true else false.
Lemma ReqbP : Equality.axiom Reqb.
Proof. by move=> x y; rewrite /Reqb; case: Req_EM_T => H; constructor. Qed.
Canonical R_eqType := Eval hnf in EqType R (EqMixin ReqbP).

Definition Rfind (P : pred R) (n : nat) : option R :=
  match excluded_middle_informative (exists x, P x) with
  | left H => Some (proj1_sig (constructive_indefinite_description _ H))
  | right _ => None
  end.
Lemma Rfind_correct P n x : Rfind P n = Some x -> P x.
Proof. by rewrite /Rfind; case: excluded_middle_informative => // H [<-]; case: constructive_indefinite_description. Qed.
Lemma Rfind_complete (P : pred R) : (exists x, P x) -> exists n, Rfind P n.
Proof. by move=> H; exists 0%N; rewrite /Rfind; case: excluded_middle_informative. Qed.
Lemma Rfind_ext (P Q : pred R) : P =1 Q -> Rfind P =1 Rfind Q.
Proof. by move=> /functional_extensionality ->. Qed.
Definition R_choiceMixin := Choice.Mixin Rfind_correct Rfind_complete Rfind_ext.
Canonical R_choiceType := Eval hnf in ChoiceType R R_choiceMixin.

Definition R_zmodMixin := ZmodMixin (fun x y z => esym (Rplus_assoc x y z)) Rplus_comm Rplus_0_l Rplus_opp_l.
Canonical R_zmodType := Eval hnf in ZmodType R R_zmodMixin.

Lemma R1_neq_0 : R1 != R0.
Proof. by apply/eqP; apply: R1_neq_R0. Qed.
Definition R_ringMixin := ComRingMixin (fun x y z => esym (Rmult_assoc x y z)) Rmult_comm Rmult_1_l Rmult_plus_distr_r R1_neq_0.
Canonical R_ringType := Eval hnf in RingType R R_ringMixin.
Canonical R_comRingType := Eval hnf in ComRingType R Rmult_comm.

Definition Rinvx (x : R) : R := if x == R0 then R0 else Rinv x.
Lemma RinvxP : GRing.Field.axiom Rinvx.
Proof. by move=> x /eqP H; rewrite /Rinvx; case: eqP => // _; apply: Rinv_l. Qed.
Lemma Rinvx0 : Rinvx R0 = R0. Proof. by rewrite /Rinvx eqxx. Qed.
Definition R_unitMixin := FieldUnitMixin RinvxP Rinvx0.
Canonical R_unitRingType := Eval hnf in UnitRingType R R_unitMixin.
Canonical R_comUnitRingType := Eval hnf in [comUnitRingType of R].
Lemma R_fieldP : GRing.Field.mixin_of [unitRingType of R].
Proof. exact: FieldMixin RinvxP Rinvx0. Qed.
Definition R_idomainMixin := FieldIdomainMixin R_fieldP.
Canonical R_idomainType := Eval hnf in IdomainType R R_idomainMixin.
Canonical R_fieldType := Eval hnf in FieldType R R_fieldP.

Definition Rleb (x y : R) : bool := if Rle_dec x y then true else false.
Definition Rltb (x y : R) : bool := if Rlt_dec x y then true else false.
Lemma RlebP x y : reflect (Rle x y) (Rleb x y).
Proof. by rewrite /Rleb; case: Rle_dec => H; constructor. Qed.
Lemma RltbP x y : reflect (Rlt x y) (Rltb x y).
Proof. by rewrite /Rltb; case: Rlt_dec => H; constructor. Qed.

Lemma Rleb_add x y : Rleb R0 x -> Rleb R0 y -> Rleb R0 (Rplus x y).
Proof. move=> /RlebP Hx /RlebP Hy; apply/RlebP; lra. Qed.
Lemma Rleb_mul x y : Rleb R0 x -> Rleb R0 y -> Rleb R0 (Rmult x y).
Proof. by move=> /RlebP Hx /RlebP Hy; apply/RlebP; apply: Rmult_le_pos. Qed.
Lemma Rleb_anti x : Rleb R0 x -> Rleb x R0 -> x = R0.
Proof. move=> /RlebP Hx /RlebP Hy; lra. Qed.
Lemma Rleb_sub x y : Rleb R0 (Rplus y (Ropp x)) = Rleb x y.
Proof. by apply/RlebP/RlebP; lra. Qed.
Lemma Rleb_total x : Rleb R0 x || Rleb x R0.
Proof. by apply/orP; case: (Rle_dec R0 x) => H; [left | right]; apply/RlebP; lra. Qed.
Lemma Rabs_opp' x : Rabs (Ropp x) = Rabs x. Proof. exact: Rabs_Ropp. Qed.
Lemma Rabs_pos' x : Rleb R0 x -> Rabs x = x.
Proof. by move=> /RlebP H; apply: Rabs_right; lra. Qed.
Lemma Rltb_def x y : Rltb x y = (y != x) && Rleb x y.
Proof.
apply/RltbP/andP => [H|[/eqP H1 /RlebP H2]]; last by lra.
by split; [apply/eqP; lra | apply/RlebP; lra].
Qed.

Definition R_numMixin := RealLeMixin Rleb_add Rleb_mul Rleb_anti Rleb_sub Rleb_total Rabs_opp' Rabs_pos' Rltb_def.
Canonical R_porderType := POrderType ring_display R R_numMixin.
Canonical R_latticeType := LatticeType R R_numMixin.
Canonical R_distrLatticeType := DistrLatticeType R R_numMixin.
Canonical R_orderType := OrderType R R_numMixin.
Canonical R_numDomainType := NumDomainType R R_numMixin.
Canonical R_normedZmodType := NormedZmodType R R R_numMixin.
Canonical R_numFieldType := [numFieldType of R].
Canonical R_realDomainType := [realDomainType of R].
Canonical R_realFieldType := [realFieldType of R].

Local Open Scope ring_scope.
Lemma RleP (x y : R) : reflect (Rle x y) (x <= y). Proof. exact: RlebP. Qed.
Lemma RltP (x y : R) : reflect (Rlt x y) (x < y). Proof. exact: RltbP. Qed.

Lemma R_natE n : n%:R = INR n :> R.
Proof. by elim: n => [|n IH] //; rewrite S_INR -addn1 natrD IH. Qed.

Lemma R_archi : Num.archimedean_axiom R_numDomainType.
Proof.
move=> x; exists (Z.to_nat (up (Rabs x))); apply/RltP; rewrite R_natE INR_IZR_INZ.
have [H _] := archimed (Rabs x).
have P : Z.le Z0 (up (Rabs x)) by apply: le_IZR; have := Rabs_pos x; lra.
by rewrite Z2Nat.id.
Qed.
Canonical R_archiFieldType := ArchiFieldType R R_archi.

Lemma ln_log_like : log_like (ln : R -> R).
Proof.
split=> [x y /RltP Hx /RltP Hy|x /RltP Hx]; first exact: ln_mult.
apply/RleP; have := exp_ineq1_le (ln x); rewrite exp_ln //.
by move=> H; change (Rle (ln x) (Rplus x (Ropp R1))); lra.
Qed.
