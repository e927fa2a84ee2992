(** Concrete inputs that meet the hypotheses of the theorems of PropEquiv.v. *)
From Coq Require Import ZArith List.
From mathcomp Require Import all_ssreflect all_algebra all_fingroup.
From Verif Require Import Base GraphModel GraphSpec RenameSpec NumModel NumSpec GradSpec.
From Verif Require Import Basic2Proofs CompelledProofs EnumProofs MeekProofs NumProofs Max3Proofs ExGraph2 ExMax PropEquiv.
Set Implicit Arguments.
Unset Strict Implicit.
Unset Printing Implicit Defensive.
Import Order.Theory GRing.Theory Num.Theory.
Local Open Scope ring_scope.

Section Ex.
Variables (F : realFieldType) (h : hord).

(** 0 -> 1 -> 3 <- 2 <- 0, 3 -> 4, and the same with 2 -> 0; an intervention on variable 1, in the second environment. *)
Definition wB (A : mat) : 'M[F]_5 := \matrix_(i, j) (if Z.eqb (get A i j) Z0 then 0 else 1).
Definition wo : 'M[F]_(2, 5) := \matrix_(i, j) (if (i == 1) && (j == 1) then 2%:R else 1).
Definition wg : 'M[F]_(1, 5) := const_mx 1.
Definition ws : 'M[F]_(2, 1) := \matrix_(i, j) (i.+1)%:R.

Lemma wB_supported A : supported A (wB A).
Proof. by move=> i j; rewrite mxE; case: Z.eqb_spec => //; rewrite eqxx. Qed.
Lemma wo_pos : positive wo.
Proof. by move=> i j; rewrite mxE; case: ifP => _; rewrite ?ltr0n ?ltr01. Qed.
Lemma ws_ge0 a b : 0 <= ws a b.
Proof. by rewrite mxE ler0n. Qed.
Lemma wo_const (j : 'I_5) : ~ List.In (nat_of_ord j) (cons 1%N nil) -> const_col wo j.
Proof.
move=> H i i'; rewrite !mxE; have -> : (j == 1) = false; last by rewrite !andbF.
by apply/eqP => E; apply: H; left; rewrite E.
Qed.
Lemma w_new : new_model h dia5 (wB dia5) wg wo ws = Ok (MkModel dia5 (wB dia5) wg wo ws (1%:M - (wB dia5)^T)).
Proof.
case: (new_model_spec h (wB dia5) wg wo ws dia5_dag.1 dia5_nonneg) => [[_ [_ ->]]|[H _]] //; case: H.
by split; [exact: dia5_dag.2.2 | exact: wB_supported].
Qed.
Lemma dia5x_dag : dag01 5 ExMax.dia5'.
Proof. by apply: dag01b_ok. Qed.
Lemma dia5_equiv : imarkov_equiv (cons 1%N nil) dia5 ExMax.dia5'.
Proof.
have [S B] := dia5_dag; have [S' B'] := dia5x_dag.
apply/(dag_to_icpdag_canonical ho_id ho_rev 5 dia5 ExMax.dia5' (cons 1%N nil) (cons 1%N (cons 1%N nil)) S dia5_nonneg B.2 S' (binary_nonneg B'.1) B'.2).
  by move=> v /=; tauto.
exact: C87_ex.1.
Qed.

Example C100_equivalent_ex : exists B' g' (o' : 'M[F]_(2, 5)) m',
  [/\ new_model h ExMax.dia5' B' g' o' ws = Ok m', positive o', o' 1 1 = 2%:R,
      (forall i, entailed B' g' o' ws i = entailed (wB dia5) wg wo ws i) & ExMax.dia5' <> dia5].
Proof.
have [S' B'] := dia5x_dag.
have [B1 [g1 [o1 [m1 [E P C Q [En _]]]]]] := C100_equivalent dia5_dag.1 dia5_nonneg S' (binary_nonneg B'.1) B'.2 dia5_equiv w_new wo_pos ws_ge0 wo_const.
exists B1, g1, o1, m1; split=> //.
by rewrite Q; [rewrite mxE | left].
Qed.

(** A latent with variance 4 and weight 1 against one with variance 1 and weight 2: the same score. *)
Example C100_entailed_ex (log : F -> F) (sigmas : 'I_2 -> 'M[F]_5) n_obs :
  let m := MkModel dia5 (wB dia5) wg wo (const_mx 4%:R : 'M[F]_(2, 1)) (1%:M - (wB dia5)^T) in
  let m' := MkModel dia5 (wB dia5) (const_mx 2%:R : 'M[F]_(1, 5)) wo (const_mx 1) (1%:M - (wB dia5)^T) in
  mgamma m <> mgamma m' /\ score log m sigmas n_obs = score log m' sigmas n_obs.
Proof.
move=> m m'; split.
  by move=> /matrixP /(_ 0 0); rewrite !mxE => /eqP; rewrite (eqr_nat F 1 2).
have New g (s : 'M[F]_(2, 1)) : new_model h dia5 (wB dia5) g wo s = Ok (MkModel dia5 (wB dia5) g wo s (1%:M - (wB dia5)^T)).
  case: (new_model_spec h (wB dia5) g wo s dia5_dag.1 dia5_nonneg) => [[_ [_ ->]]|[H _]] //; case: H.
  by split; [exact: dia5_dag.2.2 | exact: wB_supported].
apply: (C100_entailed _ _ _ dia5_dag.1 dia5_nonneg (New _ _) wo_pos _ dia5_dag.1 dia5_nonneg (New _ _) wo_pos).
- by move=> a b; rewrite mxE ler0n.
- by move=> a b; rewrite mxE ler01.
move=> i; rewrite /entailed; congr (_ *m _ *m _); apply/matrixP => u v; rewrite !mxE; congr (_ + _).
by rewrite !big_ord1 !mxE mul1r !mulr1 -natrM.
Qed.

Example C100_icpdag_ex (log : F -> F) (sigmas : 'I_2 -> 'M[F]_5) n_obs x :
  score log (MkModel dia5 (wB dia5) wg wo ws (1%:M - (wB dia5)^T)) sigmas n_obs = Ok x ->
  exists B g (o : 'M[F]_(2, 5)) m, new_model h ExMax.dia5' B g o ws = Ok m /\ score log m sigmas n_obs = Ok x.
Proof.
move=> E; have [S' B'] := dia5x_dag.
have Ei : dag_to_icpdag h dia5 (cons 1%N nil) = dag_to_icpdag ho_id ExMax.dia5' (cons 1%N nil).
  refine (proj2 (dag_to_icpdag_canonical h ho_id 5 dia5 ExMax.dia5' (cons 1%N nil) (cons 1%N nil) dia5_dag.1 dia5_nonneg dia5_dag.2.2
    S' (binary_nonneg B'.1) B'.2 (fun=> iff_refl _)) dia5_equiv).
have [R _] := C100_icpdag (I := cons 1%N nil) log sigmas n_obs x dia5_dag.1 dia5_nonneg dia5_dag.2.2 S' (binary_nonneg B'.1) B'.2 Ei ws_ge0.
case: R => [|B1 [g1 [o1 [m1 [_ _ En Es]]]]]; last first.
  by exists B1, g1, o1, m1; split; [exact: En | exact: Es].
exists (wB dia5), wg, wo, (MkModel dia5 (wB dia5) wg wo ws (1%:M - (wB dia5)^T)).
by split; [exact: wo_pos | exact: wo_const | exact: w_new | exact: E].
Qed.

(** The same model with 0 and 1 exchanged; the latent with the opposite sign and half the size. *)
Definition swap01 (i : nat) : nat := match i with O => 1%N | S O => 0%N | _ => i end.
Lemma swap01_renaming : renaming 5 swap01 swap01.
Proof. by split; [|split]; case=> [|[|i]] //; split=> //; move=> _; apply/ssrnat.ltP. Qed.
Lemma swap01_perm (i : 'I_5) : swap01 i = tperm (Ordinal (isT : (0 < 5)%N)) (Ordinal (isT : (1 < 5)%N)) i.
Proof.
case: tpermP => [->|->|] //; case: i => [[|[|i]] Hi] //= H0 H1.
- by case: H0; apply: val_inj.
- by case: H1; apply: val_inj.
Qed.
Example C102_variables_ex (log : F -> F) :
  let t := tperm (Ordinal (isT : (0 < 5)%N)) (Ordinal (isT : (1 < 5)%N)) in
  exists2 m', new_model h (rename 5 swap01 dia5) (\matrix_(i, j) wB dia5 (t i) (t j)) (col_perm t wg) (col_perm t wo) ws = Ok m' &
    forall (sigmas : 'I_2 -> 'M[F]_5) n_obs, score log m' (fun k => \matrix_(i, j) sigmas k (t i) (t j)) n_obs =
      score log (MkModel dia5 (wB dia5) wg wo ws (1%:M - (wB dia5)^T)) sigmas n_obs.
Proof. by apply: (C102_variables log h swap01_renaming swap01_perm dia5_dag.1 dia5_nonneg w_new wo_pos ws_ge0). Qed.
Example C102_latents_ex (log : F -> F) :
  exists2 m', new_model h dia5 (wB dia5) (\matrix_(a, j) (- 2%:R^-1 * wg a j)) wo (\matrix_(i, a) (ws i a / (- 2%:R^-1) ^+ 2)) = Ok m' &
    forall sigmas n_obs, score log m' sigmas n_obs = score log (MkModel dia5 (wB dia5) wg wo ws (1%:M - (wB dia5)^T)) sigmas n_obs.
Proof.
have c0 (a : 'I_1) : - (2%:R : F)^-1 != 0 by rewrite oppr_eq0 invr_eq0 pnatr_eq0.
have [m' E S] := C102_latents log h 1%g c0 dia5_dag.1 dia5_nonneg w_new wo_pos ws_ge0.
exists m' => //; rewrite -E; congr new_model; apply/matrixP => i j; by rewrite !mxE ?perm1.
Qed.
End Ex.
