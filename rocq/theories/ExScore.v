(** Concrete inputs that meet the hypotheses of the theorems of PropScore.v. *)
From Coq Require Import ZArith List Lia.
From mathcomp Require Import all_ssreflect all_algebra.
From Verif Require Import Base GraphModel GraphSpec NumModel NumSpec ScoreModel CacheSpec ScoreSpec NumProofs CacheProofs GDProofs.
From Verif Require Import ScoreProofs HistProofs LoopProofs Lr0Proofs NoErrProofs RunProofs Run2Proofs.
Set Implicit Arguments.
Unset Strict Implicit.
Unset Printing Implicit Defensive.
Import Order.Theory GRing.Theory Num.Theory.
Local Open Scope ring_scope.

(** C40: three writes, the last with a key that is already present *)
Definition ex_ops : seq (op nat nat) :=
  [:: OWrite A2 [:: 0; 1]%N 7 70; OWrite A1 [:: 0]%N 8 80; ORead A1 [::]; OWrite A2 [:: 1; 0; 1]%N 9 90]%N.
Example C40_ex : (forall m : nat, exists m', (@Ok nat m) = Ok m') /\ first_write ex_ops A2 [:: 1; 0]%N 7%N 70%N /\
  read (after (@Ok nat) ex_ops) A2 [:: 1; 0]%N = Ok (Some (7, 70)%N) /\
  read (after (@Ok nat) ex_ops) A2 [:: 1]%N = Ok None.
Proof.
split; first by move=> m; exists m.
split; last by [].
exists [::], [:: 0; 1]%N, (behead ex_ops); split=> //; split; last by constructor.
by split=> x /=; tauto.
Qed.

(** C41: a two-cycle *)
Definition cyc2 : mat := cons (cons Z0 (cons (Zpos xH) nil)) (cons (cons (Zpos xH) (cons Z0 nil)) nil).
Example C41_ex (F : realFieldType) (rnd : nat -> 'M[F]_2 * 'M[F]_2) :
  let c := @Call F 2 0 2 A2 [:: 0; 1]%N None rnd in let c' := @Call F 2 0 2 cyc2 [::] None rnd in
  [/\ proper c, proper c' & ~ acyclic (cl_A c')].
Proof.
split; first by split; [exact: A2_sq | exact: A2_nonneg |].
  split=> //; first by split=> //; do 3 constructor.
  by move=> [|[|[|i]]] [|[|[|j]]] //=; lia.
move/(_ 0%N); apply; apply: (Relation_Operators.t_trans _ _ _ 1%N); apply: Relation_Operators.t_step; by [].
Qed.

(** C42-C44, C46-C49: a call that is answered, and answered again from the cache *)
Example C42_ex (F : realFieldType) (log : F -> F) (h : hord) rnd rnd' :
  let cf := conf2 log h in
  let c := @Call F 2 0 2 A2 [:: 0; 1]%N None rnd in let c' := @Call F 2 0 2 A2 [:: 1; 0]%N None rnd' in
  exists m s m', [/\ proper c, fit cf A2 [:: 0; 1]%N None rnd = Ok (m, s), (do_call cf (fresh F 2 0 2 true) c).2 = Ok (m, s),
    (do_call cf (run cf (fresh F 2 0 2 true) [:: c]) c').2 = Ok (m', s) & same_params m m'].
Proof.
move=> cf c c'; have P : proper c by split; [exact: A2_sq | exact: A2_nonneg |].
case: (score_stale log h rnd) => m [s [_ [_ [E _ _ _]]]].
have E' := call_fresh P E.
case: (@repeatable F 2 0 2 cf [::] c [::] c' _ _ (Forall_nil _) (Forall_nil _) P erefl _ erefl E') => [|m' [ER SP]].
  by split=> x /=; tauto.
exists m, s, m'; split=> //; by move: ER; rewrite /run /= => ->.
Qed.

(** C43: an initial model that is used *)
Example C43_ex (F : realFieldType) (log : F -> F) (h : hord) :
  exists (cf : conf F 1 0 1) c r, [/\ proper c, cl_init c <> None & (do_call cf (fresh F 1 0 1 true) c).2 = Ok r].
Proof.
by case: (@init_model_refuted F log h) => cf [c [c' [r [r' [_ P' _ N [_ E _]]]]]]; exists cf, c', r'.
Qed.

(** C45, C73: valid data and limits, with a result *)
Example C73_ex (F : realFieldType) (log : F -> F) (h : hord) rnd : let cf := conf2 log h in
  [/\ square 2 A2, nonneg A2, acyclic A2 & (forall k, posdef (cf_sigmas cf k)) /\ (forall k, (0 < cf_n_obs cf k)%N)] /\
  [/\ (0 < cf_max_iter cf)%N, (0 < cf_max_fluctuations cf)%N & exists r, fit cf A2 [:: 0; 1]%N None rnd = Ok r].
Proof.
move=> cf; split; split=> //; [exact: A2_sq | exact: A2_nonneg | exact: A2_acyclic | by split=> //; exact: sig_posdef |].
by case: (score_stale log h rnd) => m [s [_ [_ [E _ _ _]]]]; exists (m, s).
Qed.

(** C45: a limit of zero *)
Definition conf0 (F : realFieldType) (log : F -> F) (h : hord) : conf F 2 0 2 :=
  Conf log h id (fun=> None) (fun=> (0, 0)) id (fun=> true) (@sig F) (fun=> 1%N) None false 0 0 0 1 0 0 Cvx 2.
Example C45_ex (F : realFieldType) (log : F -> F) (h : hord) : let cf := conf0 log h in
  [/\ (forall k, posdef (cf_sigmas cf k)), (forall k, (0 < cf_n_obs cf k)%N) & cf_max_iter cf = 0%N].
Proof. by split=> //; exact: sig_posdef. Qed.

(** C48: a latent variable and psi_max = 1 *)
Example C48_ex (F : realFieldType) (log : F -> F) (h : hord) :
  let cf := @Conf F 2 1 2 log h id (fun=> None) (fun=> (1%:M, const_mx 1)) id (fun=> true) (@sig F) (fun=> 1%N) (Some 1) false 1 0 0 1 0 0 Grad 2 in
  exists m s, [/\ initial_model cf A2 [:: 0]%N = Ok m, mscore cf m = Ok s & ~ in_range (cf_psi_max cf) m].
Proof.
move=> cf; case: (@init_cols_ok F 2 1 2 cf A2 erefl (@sig_posdef F) (fun=> erefl) (enum 'I_2) 0) => B EB.
have SB : supported A2 B by apply: (initialize_B_supported EB).
have [g EG] : exists g, initialize_gamma cf B = Ok g by rewrite /initialize_gamma /=; eexists.
set m := MkModel A2 B g (initialize_omegas cf B [:: 0]%N) (initialize_psis F 1 2) (1%:M - B^T).
have EI : initial_model cf A2 [:: 0]%N = Ok m.
  transitivity (bind (initialize_gamma cf B) (fun g => new_model h A2 B g (initialize_omegas cf B [:: 0]%N) (initialize_psis F 1 2))).
    by rewrite /initial_model /initialize_B EB.
  by rewrite EG /= (newM_ok cf A2_sq A2_nonneg A2_acyclic).
have Ho := @init_omegas_positive F 2 1 2 cf A2 A2_acyclic erefl (@sig_posdef F) (fun=> erefl) B [:: 0]%N SB.
have Hs a b : 0 < initialize_psis F 1 2 a b by rewrite mxE ltr01.
case: (@mscore_ok F 2 1 2 cf m Ho (fun a b => ltW (Hs a b))) => s Es.
exists m, s; split=> // -[_ _ /(_ 1 erefl 0 0)]; by rewrite mxE ltxx.
Qed.

(** C49: a starting point *)
Example C49_ex (F : realFieldType) : nontrivial (1%:M : 'M[F]_1).
Proof.
exists 0, 0; rewrite mxE normr1 invf_lt1 ?exprn_egt1 ?exprn_gt0 ?ltr0n ?ltr1n //.
Qed.

(** C50: x^2 from 1 with lower bound 0 and learning rate 1/4; and a starting point that is not inside *)
Definition ex_gd x0 := gd (F := [realFieldType of rat]) (fun x c g => x - c * g) (fun x => [:: [:: x]])
  (fun x => Ok (x * x)) (fun x => Ok (2%:R * x)) (10%:R^-1) (4%:R^-1) (1000%:R^-1) (Some [:: (0, None)]) 20 x0.
Example C50_ex : (if ex_gd 1 is Ok (x, l) then (x == 8%:R^-1) && (l == 64%:R^-1) else false) /\ ex_gd 0 = Err ValueError.
Proof. by split; vm_compute. Qed.

(** C51: the hypotheses for the same problem *)
Example C51_ex : let loss (x : rat) := Ok (x * x) in let flat (x : rat) := [:: [:: x]] in
  entrywise (F := [realFieldType of rat]) (fun x c g => x - c * g) flat /\
  (forall x, inside_opt (F := [realFieldType of rat]) (flat x) (Some [:: (0, None)]) -> exists l, loss x = Ok l /\ 0 <= l) /\
  inside_opt (F := [realFieldType of rat]) (flat 1) (Some [:: (0, None)]).
Proof.
split=> //; split.
  by move=> x _; exists (x * x); split=> //; rewrite -expr2 sqr_ge0.
move=> b [<-] [|[|k]] x lo hi //= [<-] [<- <-]; split=> // v [<-|[]]; by split.
Qed.

(** C74 *)
Example C74_ex (F : realFieldType) (log : F -> F) (h : hord) : let cf := conf2 log h in
  (avg_cov cf)^T = avg_cov cf /\ initialize_B cf A2 = Ok (B2 F 2).
Proof.
move=> cf; split; first by case: (@avg_posdef F 2 0 2 cf erefl (@sig_posdef F) (fun=> erefl)).
case: (@init_cols_ok F 2 0 2 cf A2 erefl (@sig_posdef F) (fun=> erefl) (enum 'I_2) 0) => B EB.
by rewrite /initialize_B EB (initB2 EB).
Qed.
