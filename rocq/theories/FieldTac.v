(** The tactics ring and field for real fields of mathcomp: [Add Field ff : (fieldT F)], then [rg F] and [fd F]. *)
From Coq Require Export Ring Field.
From mathcomp Require Import all_ssreflect all_algebra.
Set Implicit Arguments.
Unset Strict Implicit.
Import GRing.Theory Num.Theory.
Local Open Scope ring_scope.

Section Ops.
Variable F : realFieldType.
Definition fT : Type := Num.RealField.sort F.
Definition f0 : fT := 0.
Definition f1 : fT := 1.
Definition fadd (x y : fT) : fT := x + y.
Definition fmul (x y : fT) : fT := x * y.
Definition fsub (x y : fT) : fT := x - y.
Definition fopp (x : fT) : fT := - x.
Definition finv (x : fT) : fT := x^-1.
Definition fdiv (x y : fT) : fT := x / y.
Lemma ringT : ring_theory f0 f1 fadd fmul fsub fopp (@eq fT).
Proof.
split; rewrite /f0/f1/fadd/fmul/fsub/fopp => *; [exact: add0r|exact: addrC|exact: addrA|exact: mul1r|exact: mulrC|exact: mulrA|
  exact: mulrDl|by []|exact: subrr].
Qed.
Lemma fieldT : field_theory f0 f1 fadd fmul fsub fopp fdiv finv (@eq fT).
Proof. split; [exact: ringT | by move/eqP; rewrite oner_eq0 | by [] | move=> x /eqP H; exact: mulVf]. Qed.
End Ops.

Ltac fops F :=
  repeat match goal with
  | |- context [@GRing.add _ ?x ?y] => change (@GRing.add _ x y) with (@fadd F x y)
  | |- context [@GRing.opp _ ?x] => change (@GRing.opp _ x) with (@fopp F x)
  | |- context [@GRing.mul _ ?x ?y] => change (@GRing.mul _ x y) with (@fmul F x y)
  | |- context [@GRing.inv _ ?x] => change (@GRing.inv _ x) with (@finv F x)
  | |- context [@GRing.zero _] => change (@GRing.zero _) with (@f0 F)
  | |- context [@GRing.one _] => change (@GRing.one _) with (@f1 F)
  end;
  match goal with |- @eq _ ?a ?b => change (@eq (fT F) a b) end.
Ltac rg F := fops F; ring.
Ltac fd F := fops F; field.
