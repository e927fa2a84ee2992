(** The gradient solvers for B. *)
From Coq Require Import ZArith.
From mathcomp Require Import all_ssreflect all_algebra all_fingroup.
From Verif Require Import Base FieldTac GraphModel GraphSpec NumModel NumSpec LinAlgProofs NumProofs ScoreModel ScoreSpec ScoreProofs.
From Verif Require Import GradSpec DerivProofs Deriv2Proofs GradProofs.
Set Implicit Arguments.
Unset Strict Implicit.
Unset Printing Implicit Defensive.
Import Order.Theory GRing.Theory Num.Theory.
Local Open Scope ring_scope.

Section Frob.
Variables (F : realFieldType) (p : nat).
Add Field ff : (fieldT F).
Implicit Types X Y Q P : 'M[F]_p.

Lemma inner_tr X Y : inner X Y = \tr (X *m Y^T).
Proof. by apply: eq_bigr => i _; rewrite mxE; apply: eq_bigr => j _; rewrite mxE. Qed.
Definition nsq X : F := inner X X.
Lemma nsq_ge0 X : 0 <= nsq X.
Proof. by apply: sumr_ge0 => i _; apply: sumr_ge0 => j _; rewrite -expr2 sqr_ge0. Qed.

Lemma cauchy n (a b : 'I_n -> F) : (\sum_i a i * b i) ^+ 2 <= (\sum_i a i ^+ 2) * (\sum_i b i ^+ 2).
Proof.
have : 0 <= \sum_i \sum_j (a i * b j - a j * b i) ^+ 2.
  by apply: sumr_ge0 => i _; apply: sumr_ge0 => j _; rewrite sqr_ge0.
have -> : \sum_i \sum_j (a i * b j - a j * b i) ^+ 2 =
    \sum_i \sum_j (a i ^+ 2 * b j ^+ 2 + (a j ^+ 2 * b i ^+ 2) - (a i * b i * (a j * b j) + a i * b i * (a j * b j))).
  apply: eq_bigr => i _; apply: eq_bigr => j _; rewrite !expr2; move: (a i) (a j) (b i) (b j) => x y z t; by rg F.
under eq_bigr do rewrite sumrB !big_split /= -!mulr_sumr -mulr_suml.
rewrite sumrB !big_split /= -!mulr_suml -!mulr_sumr -expr2.
by rewrite subr_ge0 -!mulr2n ler_pmuln2r.
Qed.

Lemma nsq_mul Q X : nsq (Q *m X) <= nsq Q * nsq X.
Proof.
rewrite /nsq /inner; have -> : (\sum_i \sum_j X i j * X i j) = \sum_j \sum_i X i j ^+ 2.
  by rewrite exchange_big; apply: eq_bigr => j _; apply: eq_bigr => i _; rewrite expr2.
rewrite mulr_suml; apply: ler_sum => i _; rewrite mulr_sumr; apply: ler_sum => j _.
rewrite mxE -expr2; apply: le_trans (cauchy _ _) _.
by under [X in _ <= X * _]eq_bigr do rewrite -expr2.
Qed.
Lemma nsq_mul3 Q X P : nsq (Q *m X *m P) <= nsq Q * nsq P * nsq X.
Proof.
apply: le_trans (nsq_mul _ _) _; rewrite mulrAC; apply: ler_wpmul2r; [exact: nsq_ge0 | exact: nsq_mul].
Qed.
Lemma nsq_sqrt Q X : sqrt_of Q X -> nsq Q = \tr X.
Proof. by case=> S E; rewrite /nsq inner_tr S E. Qed.
Lemma quad_sqrt Q P M S X Y : sqrt_of Q M -> sqrt_of P S -> \tr (M *m X *m S *m Y^T) = inner (Q *m X *m P) (Q *m Y *m P).
Proof.
case=> SQ <- [SP <-]; rewrite inner_tr !trmx_mul SQ SP !mulmxA [RHS]mxtrace_mulC !mulmxA //.
Qed.
Lemma entry_sqrt Q M r u : sqrt_of Q M -> `|M r u| <= \tr M.
Proof.
move=> H; rewrite -(nsq_sqrt H); case: H => SQ <-.
rewrite mxE; apply: le_trans (ler_norm_sum _ _ _) _.
have two : (0 : F) < 2%:R by rewrite ltr0n.
rewrite -(ler_pmul2l two).
apply: (@le_trans _ _ (\sum_i (Q r i ^+ 2 + Q u i ^+ 2))).
  rewrite mulr_sumr; apply: ler_sum => i _; rewrite normrM.
  have -> : Q i u = Q u i by have := congr1 (fun X : 'M_p => X u i) SQ; rewrite mxE.
  rewrite -subr_ge0; have -> : Q r i ^+ 2 + Q u i ^+ 2 - 2%:R * (`|Q r i| * `|Q u i|) = (`|Q r i| - `|Q u i|) ^+ 2.
    rewrite -(real_normK (num_real (Q r i))) -(real_normK (num_real (Q u i))) !expr2 -[2%:R]/(1 + 1).
    move: `|Q r i| `|Q u i| => x y; by rg F.
  exact: sqr_ge0.
have row_le (k : 'I_p) : \sum_i Q k i ^+ 2 <= nsq Q.
  rewrite /nsq /inner [X in _ <= X](bigD1 k) //=; under eq_bigr do rewrite expr2.
  by rewrite ler_addl; apply: sumr_ge0 => i _; apply: sumr_ge0 => j _; rewrite -expr2 sqr_ge0.
by rewrite big_split /= mulr_natl mulr2n ler_add.
Qed.
End Frob.

Section Solver.
Variables (F : realFieldType) (p l e : nat) (cf : conf F p l e) (Ms : 'I_e -> 'M[F]_p).
Add Field ff : (fieldT F).
Implicit Types X Y D B : 'M[F]_p.
Local Notation sg := (cf_sigmas cf).
Local Notation P k := (cf_sqrtm cf (cf_sigmas cf k)).
Local Notation Q k := (cf_sqrtm cf (Ms k)).
Hypothesis RS : forall k, sqrt_of (P k) (sg k).
Hypothesis RM : forall k, sqrt_of (Q k) (Ms k).

Lemma innerC X Y : inner X Y = inner Y X.
Proof. by apply: eq_bigr => i _; apply: eq_bigr => j _; rewrite mulrC. Qed.
Lemma innerDl X Y D : inner (X + Y) D = inner X D + inner Y D.
Proof. by rewrite /inner -big_split; apply: eq_bigr => i _; rewrite -big_split; apply: eq_bigr => j _; rewrite mxE mulrDl. Qed.
Lemma inner_suml (x : 'I_e -> 'M[F]_p) D : inner (\sum_k x k) D = \sum_k inner (x k) D.
Proof. by rewrite inner_tr mulmx_suml raddf_sum; apply: eq_bigr => k _; rewrite inner_tr. Qed.

Lemma NmulE X : Nmul cf Ms X = \sum_k Ms k *m X *m sg k.
Proof.
apply/matrixP => r c; rewrite summxE mxE.
transitivity (\sum_k \sum_c' \sum_r' (\sum_u Q k u r * Q k u r') * X r' c' * (\sum_v P k v c' * P k v c)).
  rewrite [RHS]exchange_big; apply: eq_bigr => c' _; rewrite [RHS]exchange_big; apply: eq_bigr => r' _.
  rewrite /Nmat mulr_suml; apply: eq_bigr => k _; rewrite mulr_suml [RHS]mulr_sumr; apply: eq_bigr => v _.
  rewrite mulr_suml mulr_suml [RHS]mulr_suml; apply: eq_bigr => u _; rewrite /kron.
  move: (P k v c) (P k v c') (Q k u r) (Q k u r') (X r' c') => a b x y z; by rg F.
apply: eq_bigr => k _; rewrite mxE; apply: eq_bigr => c' _; rewrite mxE mulr_suml; apply: eq_bigr => r' _.
have [SQ MQ] := RM k; have [SP MP] := RS k.
have E1 (a b : 'I_p) : Q k a b = Q k b a by have := congr1 (fun X : 'M_p => X b a) SQ; rewrite mxE.
have E2 (a b : 'I_p) : P k a b = P k b a by have := congr1 (fun X : 'M_p => X b a) SP; rewrite mxE.
have -> : Ms k r r' = \sum_u Q k u r * Q k u r' by rewrite -{1}MQ mxE; apply: eq_bigr => u _; rewrite (E1 r).
have -> : sg k c' c = \sum_v P k v c' * P k v c by rewrite -{1}MP mxE; apply: eq_bigr => v _; rewrite (E2 c').
by [].
Qed.

Definition bil X Y : F := \sum_k inner (Q k *m X *m P k) (Q k *m Y *m P k).
Lemma bilE X Y : inner (Nmul cf Ms X) Y = bil X Y.
Proof. by rewrite NmulE inner_suml; apply: eq_bigr => k _; rewrite inner_tr (quad_sqrt X Y (RM k) (RS k)). Qed.
Lemma bilC X Y : bil X Y = bil Y X.
Proof. by apply: eq_bigr => k _; rewrite innerC. Qed.
Lemma bilDl X Y D : bil (X + Y) D = bil X D + bil Y D.
Proof. by rewrite /bil -big_split; apply: eq_bigr => k _; rewrite mulmxDr mulmxDl innerDl. Qed.
Lemma bil_sq X D : bil (X + D) (X + D) = bil X X + (inner (Nmul cf Ms X) D) *+ 2 + bil D D.
Proof.
by rewrite bilDl bilC bilDl [bil D (X + D)]bilC bilDl [bil D X]bilC bilE mulr2n !addrA.
Qed.
Lemma bil_ge0 X : 0 <= bil X X.
Proof. by apply: sumr_ge0 => k _; apply: nsq_ge0. Qed.
Definition Lam : F := \sum_k \tr (Ms k) * \tr (sg k).
Lemma bil_le X : bil X X <= Lam * nsq X.
Proof.
rewrite /bil /Lam mulr_suml; apply: ler_sum => k _.
by apply: le_trans (nsq_mul3 _ _ _) _; rewrite (nsq_sqrt (RM k)) (nsq_sqrt (RS k)).
Qed.
Lemma residualsE B : residuals (fun=> 1) Ms sg B = bil (1%:M - B^T) (1%:M - B^T).
Proof. by apply: eq_bigr => k _; rewrite mul1r (quad_sqrt _ _ (RM k) (RS k)). Qed.

Lemma tr_ge0 k : 0 <= \tr (Ms k) * \tr (sg k).
Proof. by rewrite -(nsq_sqrt (RM k)) -(nsq_sqrt (RS k)) mulr_ge0 ?nsq_ge0. Qed.
Lemma Nmul_entry X (d : F) r c : (forall i j, `|X i j| <= d) -> `|Nmul cf Ms X r c| <= Lam * (p * p)%:R * d.
Proof.
move=> H; rewrite NmulE summxE /Lam mulr_suml mulr_suml; apply: le_trans (ler_norm_sum _ _ _) _.
apply: ler_sum => k _; rewrite mxE; apply: le_trans (ler_norm_sum _ _ _) _.
have K (c' : 'I_p) : `|(Ms k *m X) r c' * sg k c' c| <= \tr (Ms k) * \tr (sg k) * p%:R * d.
  rewrite normrM mxE.
  have H1 : `|\sum_j Ms k r j * X j c'| <= \tr (Ms k) * d * p%:R.
    apply: le_trans (ler_norm_sum _ _ _) _.
    apply: (@le_trans _ _ (\sum_(j < p) \tr (Ms k) * d)).
      apply: ler_sum => j _; rewrite normrM; apply: ler_pmul => //; exact: entry_sqrt (RM k).
    by rewrite sumr_const card_ord mulr_natr.
  have -> : \tr (Ms k) * \tr (sg k) * p%:R * d = \tr (Ms k) * d * p%:R * \tr (sg k).
    move: (\tr (Ms k)) (\tr (sg k)) (p%:R : F) => x y z; by rg F.
  apply: ler_pmul => //; exact: entry_sqrt (RS k).
apply: le_trans (ler_sum _ (fun c' _ => K c')) _.
rewrite sumr_const card_ord -[_ *+ p]mulr_natr natrM.
have -> : \tr (Ms k) * \tr (sg k) * p%:R * d * p%:R = \tr (Ms k) * \tr (sg k) * (p%:R * p%:R) * d; last by [].
by move: (\tr (Ms k)) (\tr (sg k)) (p%:R : F) => x y z; rg F.
Qed.

(** X has the pattern of I - B^T. *)
Definition patterned A X : Prop := pattern A X = X.
Lemma pattern_idem A X : patterned A (pattern A X).
Proof. by apply/matrixP => r c; rewrite !mxE; case: eqP => // _; case Z: (Z.eqb _ _). Qed.
Lemma supported_pattern A B : acyclic A -> supported A B -> patterned A (1%:M - B^T).
Proof.
move=> HA HB; apply/matrixP => r c; rewrite !mxE; case: eqP => [->|_].
  have -> : B c c = 0; last by rewrite subr0.
  apply/eqP; apply: contraT => /HB E; case: (HA c); exact: Relation_Operators.t_step.
case: Z.eqb_spec => // E; have -> : B c r = 0; last by rewrite subr0.
by apply/eqP; apply: contraT => /HB.
Qed.

(** Where two patterned matrices may differ. *)
Definition free A (r c : 'I_p) : bool := (r != c) && ~~ Z.eqb (get A c r) Z0.
Lemma patterned_diff A X Y r c : patterned A X -> patterned A Y -> ~~ free A r c -> (Y - X) r c = 0.
Proof.
move=> HX HY; rewrite -HX -HY !mxE /free; case: eqP => /=; first by rewrite subrr.
by rewrite negbK => _ ->; rewrite subrr.
Qed.

Lemma minimal A X Y (d : F) : patterned A X -> patterned A Y ->
  (forall r c, free A r c -> `|Nmul cf Ms X r c| <= d) ->
  bil X X <= bil Y Y + 2%:R * d * \sum_i \sum_j `|Y i j - X i j|.
Proof.
move=> HX HY Hd; have -> : Y = X + (Y - X) by rewrite addrC subrK.
rewrite bil_sq; set D := Y - X.
have -> : \sum_i \sum_j `|(X + D) i j - X i j| = \sum_i \sum_j `|D i j|.
  by apply: eq_bigr => i _; apply: eq_bigr => j _; rewrite mxE [X i j + _]addrC addrK.
have L : - (d * \sum_i \sum_j `|D i j|) <= inner (Nmul cf Ms X) D.
  rewrite mulr_sumr -sumrN; apply: ler_sum => i _; rewrite mulr_sumr -sumrN; apply: ler_sum => j _.
  case Fr: (free A i j); last first.
    by have := patterned_diff HX HY (negbT Fr); rewrite -/D => ->; rewrite normr0 !mulr0 oppr0.
  apply: le_trans (_ : - `|Nmul cf Ms X i j * D i j| <= _).
    by rewrite ler_opp2 normrM ler_wpmul2r // Hd.
  by rewrite ler_oppl; apply: le_trans (ler_norm _) _; rewrite normrN.
rewrite -addrA -addrA ler_addl; have -> : 2%:R * d * (\sum_i \sum_j `|D i j|) = (d * \sum_i \sum_j `|D i j|) *+ 2.
  by rewrite -mulrA mulr_natl.
rewrite addrCA addr_ge0 ?bil_ge0 // -mulrnDl pmulrn_lge0 //.
by rewrite -ler_subl_addr sub0r.
Qed.
End Solver.
