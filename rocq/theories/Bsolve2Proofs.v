(** Results and termination of _solve_for_B_grad. *)
From Coq Require Import ZArith.
From mathcomp Require Import all_ssreflect all_algebra all_fingroup.
From Verif Require Import Base FieldTac GraphModel GraphSpec NumModel NumSpec LinAlgProofs NumProofs ScoreModel ScoreSpec ScoreProofs.
From Verif Require Import NoErrProofs GradSpec DerivProofs Deriv2Proofs GradProofs BsolveProofs.
Set Implicit Arguments.
Unset Strict Implicit.
Unset Printing Implicit Defensive.
Import Order.Theory GRing.Theory Num.Theory.
Local Open Scope ring_scope.

Section GradLoop.
Variables (F : realFieldType) (p l e : nat) (cf : conf F p l e) (Ms : 'I_e -> 'M[F]_p) (A : mat).
Add Field ff : (fieldT F).
Implicit Types X Y D B : 'M[F]_p.
Local Notation sg := (cf_sigmas cf).
Hypothesis RS : forall k, sqrt_of (cf_sqrtm cf (sg k)) (sg k).
Hypothesis RM : forall k, sqrt_of (cf_sqrtm cf (Ms k)) (Ms k).
Hypothesis fin : forall X, cf_finite cf X.
Local Notation del := ((10%:R ^+ 10)^-1 : F).
Local Notation bil := (bil cf Ms).
Local Notation Lam := (Lam cf Ms).
Local Notation N := (Nmul cf Ms).
Definition stepB (lr : F) X : 'M[F]_p := pattern A (X - lr *: N X).

Lemma subE X Y r c : (X - Y) r c = X r c - Y r c.
Proof. by rewrite mxE; congr (_ + _); rewrite mxE. Qed.
Lemma del_gt0 : 0 < del.
Proof. by rewrite invr_gt0 exprn_gt0 // ltr0n. Qed.

Lemma grad_loop_last k init lr B X r : lr != 0 -> X = stepB lr B -> grad_loop cf k Ms A init lr B X = Ok r ->
  r.2 = lr /\ exists B', r.1 = stepB lr B' /\ forall i j, `|(B' - r.1) i j| <= del.
Proof.
move=> lr0; elim: k B X => [|k IH] B X EX /=; case EA: (amax _) => [d|] //=; case: ifP => Hd //.
- case=> <-; split=> //; exists B; split=> // i j /=; rewrite leNgt; apply/negP => Hij.
  by move/negP: Hd; apply; apply/(amax_gt EA (ltW del_gt0)); exists i, j.
- by rewrite (negbTE lr0) fin /=; apply: IH.
case=> <-; split=> //; exists B; split=> // i j /=; rewrite leNgt; apply/negP => Hij.
by move/negP: Hd; apply; apply/(amax_gt EA (ltW del_gt0)); exists i, j.
Qed.

Lemma Nmul_sub X Y : N (X - Y) = N X - N Y.
Proof. by rewrite !NmulE // -sumrB; apply: eq_bigr => k _; rewrite mulmxBr mulmxBl. Qed.

Lemma residual lr B X : 0 < lr -> X = stepB lr B -> (forall i j, `|(B - X) i j| <= del) ->
  forall r c, free A r c -> `|N X r c| <= (lr^-1 + Lam * (p * p)%:R) * del.
Proof.
move=> lr0 EX H r c Fr; have -> : N X = N B - N (B - X) by rewrite Nmul_sub opprB addrC subrK.
rewrite subE; apply: le_trans (ler_norm_sub _ _) _; rewrite mulrDl; apply: ler_add; last first.
  exact: Nmul_entry.
have := H r c; rewrite subE EX /stepB [pattern _ _ _ _]mxE; case/andP: Fr => /negbTE -> /negbTE ->.
rewrite subE opprB addrC subrK mxE normrM gtr0_norm // -ler_pdivl_mull //.
Qed.

Lemma grad_near_optimal k init lr X r : 0 < lr -> nontrivial init -> grad_loop cf k Ms A init lr 0 init = Ok r ->
  r.2 = lr /\ patterned A r.1 /\
  forall Y, patterned A Y -> bil r.1 r.1 <= bil Y Y + 2%:R * ((lr^-1 + Lam * (p * p)%:R) * del) * \sum_i \sum_j `|Y i j - r.1 i j|.
Proof.
move=> lr0 NT; have c0 := ltW del_gt0.
have EX d : amax (0 - init) = Ok d -> del < d.
  move=> E; apply/(amax_gt E c0); case: NT => i [j Hij]; exists i, j; by rewrite sub0r mxE normrN.
case: k => [|k] /=; case EA: (amax _) => [d|] //=; rewrite (EX _ EA) //= gt_eqF // fin /= => E.
have [R2 [B' [R1 H]]] := grad_loop_last (lt0r_neq0 lr0) erefl E.
have PR : patterned A r.1 by rewrite R1; apply: pattern_idem.
split=> //; split=> // Y PY; exact: (minimal RS RM PR PY (residual lr0 R1 H)).
Qed.

(** Each step decreases the objective. *)
Lemma step_decrease lr X : lr != 0 -> patterned A X ->
  bil (stepB lr X) (stepB lr X) <= bil X X - (2%:R / lr - Lam) * nsq (stepB lr X - X).
Proof.
move=> lr0 PX; set Y := stepB lr X; set D := Y - X.
have PY : patterned A Y by apply: pattern_idem.
have EY : Y = X + D by rewrite addrC subrK.
have I1 : inner (N X) D = - (nsq D / lr).
  rewrite /nsq /inner mulr_suml -sumrN; apply: eq_bigr => i _; rewrite mulr_suml -sumrN; apply: eq_bigr => j _.
  case Fr: (free A i j); last by rewrite (patterned_diff PX PY (negbT Fr)) !mulr0 mul0r oppr0.
  have -> : N X i j = - (D i j) / lr.
    rewrite /D subE /Y /stepB [pattern _ _ _ _]mxE; case/andP: Fr => /negbTE -> /negbTE ->.
    by rewrite subE [X i j - _]addrC addrK [fun_of_matrix (lr *: _) i j]mxE opprK mulrAC mulfV // mul1r.
  move: (D i j) (lr^-1) => x y; by rg F.
rewrite EY bil_sq // I1; have -> : - (nsq D / lr) *+ 2 = - (2%:R / lr * nsq D).
  by rewrite -mulr_natr; move: (2%:R : F) (nsq D) (lr^-1) => x y z; rg F.
rewrite mulrBl opprB [Lam * _ - _]addrC addrA ler_add2l; exact: bil_le.
Qed.
End GradLoop.

Section GradTerm.
Variables (F : archiFieldType) (p l e : nat) (cf : conf F p l e) (Ms : 'I_e -> 'M[F]_p) (A : mat).
Implicit Types X Y D B : 'M[F]_p.
Local Notation sg := (cf_sigmas cf).
Hypothesis RS : forall k, sqrt_of (cf_sqrtm cf (sg k)) (sg k).
Hypothesis RM : forall k, sqrt_of (cf_sqrtm cf (Ms k)) (Ms k).
Hypothesis fin : forall X, cf_finite cf X.
Hypothesis p0 : (0 < p)%N.
Local Notation del := ((10%:R ^+ 10)^-1 : F).
Local Notation bil := (bil cf Ms).
Local Notation Lam := (Lam cf Ms).
Variable lr : F.
Hypothesis lr0 : 0 < lr.
Hypothesis small : lr * Lam < 2%:R.

Lemma nsq_big X i j : del < `|X i j| -> del * del <= nsq X.
Proof.
move=> H; apply: le_trans (_ : X i j * X i j <= _).
  rewrite -[X i j * _]expr2 -(real_normK (num_real (X i j))) expr2.
  by apply: ler_pmul; rewrite ?(ltW (del_gt0 F)) ?ltW.
rewrite /nsq /inner (bigD1 i) //= (bigD1 j) //= -addrA ler_addl addr_ge0 //.
  by apply: sumr_ge0 => k _; rewrite -expr2 sqr_ge0.
by apply: sumr_ge0 => k _; apply: sumr_ge0 => k' _; rewrite -expr2 sqr_ge0.
Qed.

Lemma grad_loop_fuel init k B X : patterned A X -> bil X X <= k%:R * ((2%:R / lr - Lam) * (del * del)) ->
  exists r, forall fuel, (k < fuel)%N -> grad_loop cf fuel Ms A init lr B X = Ok r.
Proof.
have c0 : 0 < (2%:R / lr - Lam) * (del * del).
  by rewrite !mulr_gt0 ?del_gt0 // subr_gt0 ltr_pdivl_mulr // mulrC.
have stop fuel B' X' d : amax (B' - X') = Ok d -> (del < d) = false -> grad_loop cf fuel Ms A init lr B' X' = Ok (X', lr).
  by move=> E H; case: fuel => [|fuel] /=; rewrite E /= H.
elim: k B X => [|k IH] B X PX HX.
all: have [d Ed] := amax_ok p0 (B - X).
all: case Hd: (del < d); last by exists (X, lr) => fuel _; apply: stop Ed Hd.
all: have [d' Ed'] := amax_ok p0 (X - stepB cf Ms A lr X).
all: case Hd': (del < d').
- case/(amax_gt Ed' (ltW (del_gt0 F))): Hd' => i [j Hij].
  have := step_decrease RS RM (lt0r_neq0 lr0) PX; set Y := stepB _ _ _ _ _ in Hij * => Dc.
  have D2 : del * del <= nsq (Y - X) by apply: (@nsq_big _ i j); rewrite -opprB mxE normrN.
  have : bil Y Y < 0.
    apply: le_lt_trans Dc _; rewrite subr_lt0; apply: le_lt_trans HX _; rewrite mul0r mulr_gt0 //.
      by rewrite subr_gt0 ltr_pdivl_mulr // mulrC.
    by apply: lt_le_trans D2; rewrite mulr_gt0 ?del_gt0.
  by rewrite ltNge bil_ge0.
- exists (stepB cf Ms A lr X, lr) => -[|fuel] // _ /=.
  by rewrite Ed /= Hd gt_eqF // fin /=; apply: stop Ed' Hd'.
- case/(amax_gt Ed' (ltW (del_gt0 F))): Hd' => i [j Hij].
  have := step_decrease RS RM (lt0r_neq0 lr0) PX; set Y := stepB _ _ _ _ _ in Hij * => Dc.
  have D2 : del * del <= nsq (Y - X) by apply: (@nsq_big _ i j); rewrite -opprB mxE normrN.
  have PY : patterned A Y by apply: pattern_idem.
  have BY : bil Y Y <= k%:R * ((2%:R / lr - Lam) * (del * del)).
    apply: le_trans Dc _; rewrite ler_subl_addr; apply: le_trans HX _.
    rewrite -[k.+1]addn1 natrD mulrDl mul1r ler_add2l ler_wpmul2l //.
    by rewrite ltW // subr_gt0 ltr_pdivl_mulr // mulrC.
  have [r Hr] := IH X Y PY BY; exists r => -[|fuel] // Hf /=.
  by rewrite Ed /= Hd gt_eqF // fin /=; apply: Hr.
exists (stepB cf Ms A lr X, lr) => -[|fuel] // _ /=.
by rewrite Ed /= Hd gt_eqF // fin /=; apply: stop Ed' Hd'.
Qed.

Lemma grad_loop_term init : exists n r, forall fuel, (n <= fuel)%N -> grad_loop cf fuel Ms A init lr 0 init = Ok r.
Proof.
set c := (2%:R / lr - Lam) * (del * del).
have c0 : 0 < c by rewrite !mulr_gt0 ?del_gt0 // subr_gt0 ltr_pdivl_mulr // mulrC.
set X := stepB cf Ms A lr init.
have [d Ed] := amax_ok p0 (0 - init).
case Hd: (del < d); last first.
  by exists 0%N, (init, lr) => fuel _; case: fuel => [|fuel] /=; rewrite Ed /= Hd.
have PX : patterned A X by apply: pattern_idem.
have : bil X X <= (Num.bound (bil X X / c))%:R * c.
  by rewrite -ler_pdivr_mulr //; apply/ltW/archi_boundP; rewrite divr_ge0 ?bil_ge0 // ltW.
case/(grad_loop_fuel init init PX) => r Hr; exists (Num.bound (bil X X / c)).+2, r => -[|fuel] // Hf /=.
by rewrite Ed /= Hd gt_eqF // fin /=; apply: Hr.
Qed.
End GradTerm.
