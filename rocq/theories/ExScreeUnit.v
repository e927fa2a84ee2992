(** Concrete inputs for the theorems of PropScreeUnit.v. *)
From Coq Require Import ZArith QArith Reals.
From mathcomp Require Import all_ssreflect all_algebra.
From Verif Require Import Base GraphModel NumModel ScoreModel CovModel CovSpec MainModel MainSpec ExMainDefs RealProofs ScreeUnitSpec ScreeUnitProofs PropScreeUnit.
Set Implicit Arguments.
Unset Strict Implicit.
Unset Printing Implicit Defensive.
Import Order.Theory GRing.Theory Num.Theory.
Local Open Scope nat_scope.
Local Open Scope ring_scope.

(** The reals with their logarithm, and a decomposition that reads the singular values off the diagonal *)
Local Notation F := R_realFieldType.
Definition diagonal_svd (S : 'M[F]_3) : 'M[F]_3 * 'rV[F]_3 :=
  (1%:M, \row_j nth 0 (sort (fun x y => y <= x) [seq S i i | i <- enum 'I_3]) j).
Definition world3 : world F 3 1 := World (ln : F -> F) (Rtrigo1.PI : F) ho_id id (fun l m => None) diagonal_svd id (fun=> true) (fun=> nil) (@np_cov F 3)
    (fun _ _ => nil) (fun _ _ xs => xs) (fun _ _ _ => (0, 0)) 0.
Definition args3 : args F := Args None [::] None false 1 0 0 1 0 0 Cvx.

Lemma ln_increasing' : increasing_log (ln : F -> F).
Proof. by move=> x y /RltP x0 /RltP xy; apply/RltP; exact: ln_increasing. Qed.
Lemma values3 S : singular_values world3 S = sort (fun x y => y <= x) [seq S i i | i <- enum 'I_3].
Proof.
rewrite /singular_values /= (eq_map (f2 := (fun i => nth 0 (sort (fun x y => y <= x) [seq S i i | i <- enum 'I_3]) i) \o val)) => [|j]; last by rewrite mxE.
rewrite map_comp val_enum_ord; set s := sort _ _.
have <- : size s = 3%N by rewrite size_sort size_map size_enum_ord.
exact: mkseq_nth.
Qed.
Lemma world3_diagonal : svd_diagonal world3.
Proof.
move=> d _; rewrite values3; split; first by apply: sort_sorted => x y; exact: le_total.
by rewrite perm_sort (eq_map (f2 := fun j => d 0 j)) // => j; rewrite mxE eqxx.
Qed.
Lemma world3_homogeneous : svd_homogeneous world3.
Proof.
move=> t S t0; rewrite !values3 -[RHS]/(map ( *%R t) _).
rewrite (eq_map (f2 := ( *%R t) \o (fun i => S i i))) => [|i]; last by rewrite /= mxE.
rewrite map_comp; set s := [seq S i i | i <- _].
apply: (sorted_eq (leT := fun x y : F => y <= x)).
- by move=> u v r /[swap]; exact: le_trans.
- by move=> u v /andP[L1 L2]; apply/eqP; rewrite eq_le L1 L2.
- by apply: sort_sorted => x y; exact: le_total.
- by rewrite sorted_map (eq_sorted (e' := fun x y : F => y <= x)) => [|x y]; [apply: sort_sorted => x y; exact: le_total|rewrite /= ler_pmul2l].
by rewrite perm_sort; apply: perm_map; rewrite perm_sym perm_sort.
Qed.

(** C136: the singular values 9, 4, 3, measured in other units *)
Example C136_ex : scree_selection (ln : F -> F) Rtrigo1.PI [:: 2%:R * 9%:R + 1; 2%:R * 4%:R + 1; 2%:R * 3%:R + 1] = Ok 1%N.
Proof.
have N (m n : nat) : (m < n)%N -> n%:R != m%:R :> F by move=> H; rewrite gt_eqF // ltr_nat.
have E : scree_selection (ln : F -> F) Rtrigo1.PI [:: 9%:R; 4%:R; 3%:R] = Ok 1%N.
  by rewrite scree3 ?N //; [rewrite -!natrB // -!natrX ler_nat | exact: ln_increasing'].
rewrite -E; apply: (C136_scree F ln Rtrigo1.PI 2%:R 1 [:: 9%:R; 4%:R; 3%:R] ln_increasing') => //; first by rewrite ltr0n.
by case=> [|[|[|h]]] // _; rewrite ?pooled3_1 ?pooled3_2 divr_gt0 ?ltr0n // exprn_gt0 // subr_gt0 ltr_nat.
Qed.

(** C136: a sample along the axes, with all variables divided by 2 and shifted by their index *)
Example C136_numbers_ex : let X := axes (row3 (7%:R : F) 6%:R 1) in
  numbers world3 args3 [:: [seq convert (fun=> 2%:R^-1) (fun j : 'I_3 => (val j)%:R) x | x <- X]] = Ok [:: 1%N; 2%N].
Proof.
have Q0 : (1 : F) ^+ 2 < 6%:R ^+ 2 by rewrite expr1n -natrX ltr1n.
have Q1 : (6%:R : F) ^+ 2 < 7%:R ^+ 2 by rewrite -!natrX ltr_nat.
move=> X; rewrite C136_numbers //.
- rewrite numbers3 //; [by rewrite expr1n -!natrX -[X in _ - X]/(1%:R) -!natrB // ler_nat|exact: ln_increasing'|exact: world3_diagonal].
- exact: ln_increasing'.
- exact: world3_homogeneous.
- by rewrite size_axes.
- by rewrite invr_gt0 ltr0n.
have [t t0 ->] := axes_values world3_diagonal Q0 Q1.
by case=> [|[|[|h]]] // _; rewrite ?pooled3_1 ?pooled3_2 divr_gt0 ?ltr0n // exprn_gt0 // subr_gt0 ltr_pmul2l.
Qed.

(** C137 *)
Example C137_ex : exists X (c : 'I_3 -> F),
  [/\ forall j, 0 < c j, numbers world3 args3 [:: X] = Ok [:: 1%N; 2%N]
    & numbers world3 args3 [:: [seq convert c (fun=> 0) x | x <- X]] = Ok [:: 1%N]].
Proof. exact: (C137_units_refuted F 1 world3 args3 [::] ln_increasing' (fun=> erefl) world3_diagonal erefl). Qed.
