(** Instances of C105. *)
From Coq Require Import ZArith List.
From mathcomp Require Import all_ssreflect all_algebra.
From Verif Require Import Base FieldTac GraphModel GraphSpec NumModel NumSpec LinAlgProofs ScoreModel GradSpec BsolveProofs Bsolve3Proofs Bsolve4Proofs DescentSpec.
From Verif Require Import TopoProofs ScoreSpec GDProofs NumProofs ScoreProofs LoopProofs Lr0Proofs NoErrProofs Run2Proofs GradProofs Descent2Proofs DescentProofs PropDescent.
Set Implicit Arguments.
Unset Strict Implicit.
Unset Printing Implicit Defensive.
Import Order.Theory GRing.Theory Num.Theory.
Local Open Scope ring_scope.

(** One environment: 0 -> 1, unit variances, correlation 1/2; the convex problem is solved exactly by B[0, 1] = 1/2. *)
Section One.
Variables (F : realFieldType) (log : F -> F) (h : hord).
Add Field ff : (fieldT F).
Definition conf6 : conf F 2 0 1 :=
  Conf log h id (fun m => Some (1%:M - tri (- 2%:R^-1))^T) (fun=> (0, 0)) id (fun=> true) (fun=> sg5 F ord0) (fun=> 1%N) None false
    1000 (10%:R ^+ 3)^-1 (10%:R ^+ 5)^-1 5 (10%:R ^+ 5)^-1 1 Cvx 171.
Lemma res6 (g : 'M[F]_(0, 2)) (o : 'M[F]_(1, 2)) (s : 'M[F]_(1, 0)) (B : 'M[F]_2) x : positive o -> 1%:M - B^T = tri x ->
  residuals (fun=> 1) (fun k => invmx (noise g o s k)) (fun=> sg5 F ord0) B = (o 0 0)^-1 + (o 0 1)^-1 * (x * x + x + 1).
Proof.
move=> P E; rewrite /residuals big_ord_recl big_ord0 addr0 mul1r E noise5 // -!mulmxA [tri x *m _]mulmxA tr5 !mxE /cor /=.
by rewrite mulrAC mulfV ?pnatr_eq0 // mul1r.
Qed.
Lemma exact6 : exact_cvx conf6 A2.
Proof.
move=> B g o s m B1 EN Po Ps /= [<-]; split=> [|B' SB']; first exact: supported_tri.
rewrite (res6 g s Po (supported_triE SB')) (res6 g s Po (IB_inv (tri (- 2%:R^-1)))).
rewrite ler_add2l ler_pmul2l ?invr_gt0 // -subr_ge0; move: (- B' 0 1) => y.
have n2 : 2%:R != 0 :> F by rewrite pnatr_eq0.
suff -> : y * y + y + 1 - (- 2%:R^-1 * - 2%:R^-1 + - 2%:R^-1 + 1) = (y + 2%:R^-1) ^+ 2 by exact: sqr_ge0.
by move: n2; nums => n2; fd F; exact/eqP.
Qed.
Example C105_one_environment_ex m0 B o I rnd m s : new_model h A2 B (no_g F) o (no_s F 1) = Ok m0 ->
  fit conf6 A2 I (Some m0) rnd = Ok (m, s) -> no_worse conf6 m0 m.
Proof.
move=> E0 E; have [|m1 [[[<-]|[]]]] // := @C105_one_environment_partial F 2 0 conf6 A2 A2_sq A2_nonneg _ _ _ _ _ erefl erefl exact6 _ E.
by move=> m1 [<-]; do 4!eexists; exact: E0.
Qed.
Example C105_descent_ex : solver_descends conf6 A2.
Proof. exact: (@cvx_descends F 2 0 conf6 A2 A2_sq A2_nonneg erefl erefl exact6). Qed.
End One.
(** Two environments with correlations 1/2 and -1/2: the convex problem is solved exactly. *)
Example C105_refuted_ex : exact_cvx (conf5 (id : rat -> rat) ho_id) A2.
Proof. exact: exact5. Qed.
