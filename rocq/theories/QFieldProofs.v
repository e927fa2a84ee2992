(** The rational numbers in a real field, for computations with numerals. *)
From Coq Require Import ZArith QArith Lia.
From mathcomp Require Import all_ssreflect all_algebra.
Set Implicit Arguments.
Unset Strict Implicit.
Unset Printing Implicit Defensive.
Import Order.Theory GRing.Theory Num.Theory.
Local Open Scope ring_scope.

Section QF.
Variable F : realFieldType.
Definition pF (a : positive) : F := (Pos.to_nat a)%:R.
Definition zF (z : Z) : F := match z with Z0 => 0 | Zpos a => pF a | Zneg a => - pF a end.
Definition qF (q : Q) : F := zF (Qnum q) / pF (Qden q).

Lemma pF_gt0 a : 0 < pF a.
Proof. by rewrite ltr0n; apply/ssrnat.ltP; exact: Pos2Nat.is_pos. Qed.
Lemma pF_neq0 a : pF a != 0. Proof. by rewrite gt_eqF ?pF_gt0. Qed.
Lemma pFM a b : pF (a * b) = pF a * pF b. Proof. by rewrite /pF Pos2Nat.inj_mul -natrM. Qed.
Lemma pFD a b : pF (a + b) = pF a + pF b. Proof. by rewrite /pF Pos2Nat.inj_add -natrD. Qed.
Lemma pFB a b : (b < a)%positive -> pF (a - b) = pF a - pF b.
Proof. by move=> H; rewrite -{2}(Pos.sub_add _ _ H) pFD addrK. Qed.
Lemma zF_pos_sub a b : zF (Z.pos_sub a b) = pF a - pF b.
Proof.
rewrite Z.pos_sub_spec; case: Pos.compare_spec => H /=; first by rewrite H subrr.
  by rewrite pFB // opprB.
by rewrite pFB.
Qed.
Lemma zFD x y : zF (x + y) = zF x + zF y.
Proof.
case: x => [|a|a]; case: y => [|b|b] //=; rewrite ?add0r ?addr0 ?pFD ?zF_pos_sub ?opprD //.
by rewrite addrC.
Qed.
Lemma zFN x : zF (- x) = - zF x. Proof. by case: x => [|a|a] //=; rewrite ?oppr0 ?opprK. Qed.
Lemma zFM x y : zF (x * y) = zF x * zF y.
Proof. by case: x => [|a|a]; case: y => [|b|b] //=; rewrite ?mul0r ?mulr0 ?pFM ?mulNr ?mulrN ?opprK. Qed.
Lemma zF_gt0 x : (0 < zF x) = Z.ltb Z0 x.
Proof. by case: x => [|a|a] //=; rewrite ?ltxx ?pF_gt0 // oppr_gt0 lt_gtF ?pF_gt0. Qed.

Lemma qFD x y : qF (x + y) = qF x + qF y.
Proof. by rewrite /qF /= zFD !zFM !pFM addf_div ?pF_neq0. Qed.
Lemma qFM x y : qF (x * y) = qF x * qF y.
Proof. by rewrite /qF /= zFM pFM mulf_div. Qed.
Lemma qFN x : qF (- x) = - qF x.
Proof. by rewrite /qF /= zFN mulNr. Qed.
Lemma qFV x : qF (/ x) = (qF x)^-1.
Proof.
rewrite /qF /Qinv; case: x => -[|a|a] b /=; rewrite ?mul0r ?invr0 // ?invfM ?invrK ?invrN; first by rewrite mulrC.
by rewrite !mulNr mulrC.
Qed.
Lemma qF_lt x y : (qF x < qF y) = Z.ltb (Qnum x * Zpos (Qden y)) (Qnum y * Zpos (Qden x)).
Proof.
rewrite /qF ltr_pdivr_mulr ?pF_gt0 // mulrAC ltr_pdivl_mulr ?pF_gt0 //.
rewrite -[pF (Qden x)]/(zF (Zpos (Qden x))) -[pF (Qden y)]/(zF (Zpos (Qden y))) -!zFM -subr_gt0 -zFN -zFD zF_gt0.
by apply/Z.ltb_spec0/Z.ltb_spec0; lia.
Qed.
Lemma qF_eq x y : Qeq_bool x y -> qF x = qF y.
Proof.
rewrite /Qeq_bool => /Zeq_bool_eq E; apply/eqP; rewrite /qF eqr_div ?pF_neq0 //.
by rewrite -[pF (Qden x)]/(zF (Zpos (Qden x))) -[pF (Qden y)]/(zF (Zpos (Qden y))) -!zFM E.
Qed.
Lemma qF_nat n : n%:R = qF (Qmake (Z.of_nat n) 1).
Proof.
rewrite /qF /= [pF 1]/= divr1; case: n => [|n] //; rewrite /Z.of_nat /= /pF SuccNat2Pos.id_succ //.
Qed.
Lemma qF0 : 0 = qF (Qmake 0 1). Proof. by rewrite /qF mul0r. Qed.
Lemma qF1 : 1 = qF (Qmake 1 1). Proof. by rewrite /qF divff ?pF_neq0. Qed.
End QF.
Definition qFE := (qFD, qFM, qFN, qFV).
Ltac qfeq := rewrite ?expr2 -?qFE; apply: qF_eq; vm_compute; reflexivity.
Ltac qflt := rewrite ?expr2 -?qFE qF_lt; vm_compute; reflexivity.
